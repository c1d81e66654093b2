(** Corollaries of BufferProof used by the property theorems. *)
From Coq Require Import ZArith List Bool Lia Arith.
From Coq Require Import ZifyBool ZifyNat.
From Verif Require Import BufferModel BufferSpec BufferProof.
Import ListNotations.
Open Scope Z_scope.

Lemma nth_firstn_lt {A} (d : A) l n i : (i < n)%nat -> nth i (firstn n l) d = nth i l d.
Proof. revert l i. induction n; intros [|x l] [|i] H; cbn; auto; try lia. apply IHn. lia. Qed.
Lemma nth_skipn' {A} (d : A) l n i : nth i (skipn n l) d = nth (n + i) l d.
Proof. revert l. induction n; intros [|x l]; cbn; auto. destruct i; reflexivity. Qed.
Lemma nth_repeat0 n i : nth i (repeat 0 n) 0 = 0.
Proof. revert i. induction n; intros [|i]; cbn; auto. Qed.

(** Writing bytes anywhere: success exactly when they fit, and then only those bytes change. *)
Lemma write_bytes_at_spec b o d : 0 <= o -> len (bytes b) < 2 ^ 64 ->
  if (o + len d <? 2 ^ 64) && (growable b || (o + len d <=? len (bytes b))) then
    exists b', write_bytes_at b o d = (true, b') /\ off b' = o + len d /\ end_ b' = end_ b /\ growable b' = growable b /\
      len (bytes b') = Z.max (len (bytes b)) (o + len d) /\
      (forall i, nth i (bytes b') 0 =
        if (o <=? Z.of_nat i) && (Z.of_nat i <? o + len d) then nth (i - Z.to_nat o) d 0 else nth i (bytes b) 0)
  else write_bytes_at b o d = (false, b).
Proof.
  intros Ho HL. unfold write_bytes_at, checked_add. destruct (o + len d <? 2 ^ 64) eqn:C1; cbn [andb]; [|reflexivity].
  replace ((len (bytes b) <? o + len d) && negb (growable b)) with (negb (growable b || (o + len d <=? len (bytes b)))) by (destruct (growable b); lia).
  destruct (growable b || (o + len d <=? len (bytes b))) eqn:C2; cbn [negb]; [|reflexivity].
  eexists. split; [reflexivity|]. cbn [off end_ growable bytes]. split; [reflexivity|]. split; [reflexivity|]. split; [reflexivity|].
  set (l := if len (bytes b) <? o + len d then resize (o + len d) (bytes b) else bytes b).
  assert (Hl : len l = Z.max (len (bytes b)) (o + len d)).
  { unfold l. destruct (len (bytes b) <? o + len d) eqn:C3; [|lia].
    unfold resize, len in *. rewrite app_length, repeat_length, firstn_length. lia. }
  assert (Hn : forall i, nth i l 0 = nth i (bytes b) 0).
  { intros i. unfold l. destruct (len (bytes b) <? o + len d) eqn:C3; [|reflexivity]. unfold resize, len in *.
    rewrite firstn_all2 by lia. destruct (lt_dec i (length (bytes b))) as [L|G].
    - apply app_nth1. exact L.
    - rewrite app_nth2 by lia. rewrite nth_repeat0. symmetry. apply nth_overflow. lia. }
  clearbody l. split.
  - unfold store, len in *. rewrite !app_length, firstn_length, skipn_length. lia.
  - intros i. unfold store.
    assert (Hf : length (firstn (Z.to_nat o) l) = Z.to_nat o) by (rewrite firstn_length; unfold len in *; lia).
    destruct ((o <=? Z.of_nat i) && (Z.of_nat i <? o + len d)) eqn:C3.
    + rewrite app_nth2 by lia. rewrite Hf, app_nth1 by (unfold len in *; lia). reflexivity.
    + rewrite <- Hn. destruct (lt_dec i (Z.to_nat o)) as [L|G].
      * rewrite app_nth1 by lia. apply nth_firstn_lt. exact L.
      * rewrite app_nth2 by lia. rewrite Hf, app_nth2 by (unfold len in *; lia). rewrite nth_skipn'. f_equal. unfold len in *. lia.
Qed.
Lemma len_int_bytes e n v : len (int_bytes e n v) = Z.of_nat n.
Proof. unfold len. rewrite int_bytes_length. reflexivity. Qed.
Lemma write_int_layout b o w v : 0 <= o -> len (bytes b) < 2 ^ 64 ->
  let n := Z.of_nat (size_of w) in
  if (o + n <? 2 ^ 64) && (growable b || (o + n <=? len (bytes b))) then
    exists b', write_int_at b o w v = (true, b') /\ off b' = o + n /\ end_ b' = end_ b /\ growable b' = growable b /\
      len (bytes b') = Z.max (len (bytes b)) (o + n) /\
      (forall i, nth i (bytes b') 0 =
        if (o <=? Z.of_nat i) && (Z.of_nat i <? o + n) then nth (i - Z.to_nat o) (int_bytes (end_ b) (size_of w) v) 0
        else nth i (bytes b) 0)
  else write_int_at b o w v = (false, b).
Proof.
  intros Ho HL. cbv zeta. rewrite write_int_at_eq.
  pose proof (write_bytes_at_spec b o (int_bytes (end_ b) (size_of w) v) Ho HL) as H. rewrite len_int_bytes in H. exact H.
Qed.
Lemma nth_eq_list (a b : list Z) : length a = length b -> (forall i, (i < length a)%nat -> nth i a 0 = nth i b 0) -> a = b.
Proof. intros. apply nth_ext with 0 0; auto. Qed.
Lemma read_int_after_write b o w v b' : 0 <= o -> len (bytes b) < 2 ^ 64 -> 0 <= v < 256 ^ Z.of_nat (size_of w) ->
  write_int_at b o w v = (true, b') -> read_int_at b' o w = (Some v, b').
Proof.
  intros Ho HL Hv HW. pose proof (write_int_layout b o w v Ho HL) as H. cbv zeta in H.
  destruct ((o + Z.of_nat (size_of w) <? 2 ^ 64) && (growable b || (o + Z.of_nat (size_of w) <=? len (bytes b)))) eqn:C; [|congruence].
  destruct H as (b2 & E & Hoff & He & Hg & Hlen & Hn). rewrite HW in E. apply pair_equal_spec in E. destruct E as [_ <-].
  apply read_int_at_bytes; [exact Hv|]. unfold read_bytes_at, checked_add.
  replace (o + Z.of_nat (size_of w) <? 2 ^ 64) with true by lia.
  replace (len (bytes b') <? o + Z.of_nat (size_of w)) with false by lia.
  f_equal; [f_equal|destruct b'; unfold set_off; cbn in *; f_equal; lia].
  apply nth_eq_list.
  - unfold load, len in *. rewrite firstn_length, skipn_length, int_bytes_length. lia.
  - intros i Hi. unfold load in *. rewrite firstn_length, skipn_length in Hi. rewrite nth_firstn_lt by lia. rewrite nth_skipn', Hn.
    replace ((o <=? Z.of_nat (Z.to_nat o + i)) && (Z.of_nat (Z.to_nat o + i) <? o + Z.of_nat (size_of w))) with true by lia.
    rewrite He. f_equal. lia.
Qed.

Lemma read_bytes_at_spec b o n : 0 <= o -> 0 <= n -> len (bytes b) < 2 ^ 64 ->
  if o + n <=? len (bytes b) then
    exists d, read_bytes_at b o n = (Some d, set_off (o + n) b) /\ len d = n /\
      (forall i, Z.of_nat i < n -> nth i d 0 = nth (Z.to_nat o + i) (bytes b) 0)
  else read_bytes_at b o n = (None, b).
Proof.
  intros Ho Hn HL. unfold read_bytes_at, checked_add. destruct (o + n <=? len (bytes b)) eqn:C.
  - replace (o + n <? 2 ^ 64) with true by lia. replace (len (bytes b) <? o + n) with false by lia.
    eexists. split; [reflexivity|]. unfold load, len in *. split; [rewrite firstn_length, skipn_length; lia|].
    intros i Hi. rewrite nth_firstn_lt by lia. apply nth_skipn'.
  - destruct (o + n <? 2 ^ 64); [|reflexivity]. replace (len (bytes b) <? o + n) with true by lia. reflexivity.
Qed.
Lemma read_ptr_ok b o s n : 0 <= o -> 0 < s -> 0 <= n -> s * n < 2 ^ 64 -> len (bytes b) < 2 ^ 64 ->
  if o + s * n <=? len (bytes b) then read_ptr_at b o s n = (Some (o, s * n), set_off (o + s * n) b)
  else read_ptr_at b o s n = (None, b).
Proof.
  intros Ho Hs Hn HW HL. unfold read_ptr_at, checked_add. rewrite Z.mod_small by nia. destruct (o + s * n <=? len (bytes b)) eqn:C.
  - replace (o + s * n <? 2 ^ 64) with true by lia. replace (len (bytes b) <? o + s * n) with false by lia. reflexivity.
  - destruct (o + s * n <? 2 ^ 64); [|reflexivity]. replace (len (bytes b) <? o + s * n) with true by lia. reflexivity.
Qed.
Lemma read_ptr_overflow : exists b o s n o' m b', 0 <= o /\ 0 < s < 2 ^ 64 /\ 0 <= n < 2 ^ 64 /\
  read_ptr_at b o s n = (Some (o', m), b') /\ len (bytes b) < o' + m.
Proof.
  exists (Buf [1; 2; 3; 4] 0 Native false), 0, 8, (2 ^ 61), 0, (2 ^ 64). eexists.
  split; [lia|]. split; [lia|]. split; [lia|]. split; [vm_compute; reflexivity|]. vm_compute. reflexivity.
Qed.
Lemma composite_write_not_atomic : exists t v b b', valid t v /\ in_range b /\ write t v b = (false, b') /\ bytes b' <> bytes b.
Proof.
  exists (TPair (TInt W1) (TInt W8)), (7, 9), (Buf [0; 0; 0; 0] 0 Native false). eexists.
  split; [cbn; lia|]. split; [split; unfold len; cbn; lia|]. split; [vm_compute; reflexivity|]. vm_compute. discriminate.
Qed.

Lemma composite_layout t v b : narrow t = true -> valid t v -> in_range b ->
  (fits b (encoding (end_ b) t v) -> write t v b = (true, put b (encoding (end_ b) t v))) /\
  (~ fits b (encoding (end_ b) t v) -> fst (write t v b) = false).
Proof. intros Hn Hv Hr. exact (write_encoding t Hn v Hv b Hr). Qed.
Lemma put_split b d : in_range b -> bytes (put b d) = firstn (Z.to_nat (off b)) (bytes b) ++ d ++ skipn (Z.to_nat (off b) + length d) (bytes b).
Proof. reflexivity. Qed.
Lemma composite_roundtrip t v b b' : narrow t = true -> valid t v -> in_range b -> write t v b = (true, b') ->
  read t (set_off (off b) b') = (Some v, b').
Proof.
  intros Hn Hv Hr HW. destruct (composite_layout t v b Hn Hv Hr) as [H1 H2].
  destruct (fits_dec b (encoding (end_ b) t v)) as [Y|N]; [|rewrite HW in H2; specialize (H2 N); discriminate].
  specialize (H1 Y). rewrite HW in H1. apply pair_equal_spec in H1. destruct H1 as [_ ->].
  set (d := encoding (end_ b) t v) in *.
  pose proof (put_in_range b d Hr Y) as Hr'. destruct Hr as [[Ho1 Ho2] HL].
  assert (Hp : len (firstn (Z.to_nat (off b)) (bytes b)) = off b) by (unfold len in *; rewrite firstn_length; lia).
  rewrite (read_encoding t Hn v Hv (set_off (off b) (put b d)) (firstn (Z.to_nat (off b)) (bytes b)) (skipn (Z.to_nat (off b) + length d) (bytes b))).
  - cbn [set_off end_ put]. fold d. rewrite Hp. reflexivity.
  - reflexivity.
  - cbn [set_off off]. symmetry. exact Hp.
  - apply Hr'.
Qed.

Lemma write_many_writes l : Forall (fun x => narrow (projT1 x) = true /\ valid (projT1 x) (projT2 x)) l ->
  writes (write_many l) (fun e => concat (map (fun x => encoding e (projT1 x) (projT2 x)) l)).
Proof.
  induction l as [|[t v] l IH]; intros H; cbn [write_many map concat projT1 projT2]; [apply writes_nil|].
  inversion_clear H as [|? ? [Hn Hv] Hl]. cbn [projT1 projT2] in *.
  apply (writes_seq (write t v) (write_many l) (fun e => encoding e t v)); [apply write_encoding; assumption|].
  apply IH. exact Hl.
Qed.
Lemma write_many_at_wrong : exists o l b b', in_range (set_off o b) /\
  Forall (fun x => narrow (projT1 x) = true /\ valid (projT1 x) (projT2 x)) l /\
  fits (set_off o b) (concat (map (fun x => encoding (end_ b) (projT1 x) (projT2 x)) l)) /\
  write_many_at o l b = (true, b') /\
  b' <> put (set_off o b) (concat (map (fun x => encoding (end_ b) (projT1 x) (projT2 x)) l)).
Proof.
  exists 1, [existT _ (TInt W2) 1; existT _ (TInt W2) 2], (Buf [0; 0; 0; 0; 0; 0] 0 Native false). eexists.
  split; [split; unfold len; cbn; lia|]. split; [repeat constructor; cbn; lia|].
  split; [split; [vm_compute; reflexivity|right; vm_compute; discriminate]|]. split; [vm_compute; reflexivity|]. vm_compute. discriminate.
Qed.
Lemma write_many_at_single t v o b : narrow t = true -> valid t v -> in_range (set_off o b) ->
  fits (set_off o b) (encoding (end_ b) t v) ->
  write_many_at o [existT _ t v] b = (true, put (set_off o b) (encoding (end_ b) t v)).
Proof.
  intros Hn Hv Hr Hf. cbn [write_many_at].
  assert (E : write_at t o v b = (true, put (set_off o b) (encoding (end_ b) t v))); [|rewrite E; reflexivity].
  destruct (composite_layout t v (set_off o b) Hn Hv Hr) as [H _]. cbn [set_off end_] in H. specialize (H Hf).
  destruct t; try exact H. cbn [write_at]. cbn [write] in H. unfold write_int in H.
  rewrite write_int_at_eq in *. unfold write_bytes_at, set_off in *. cbn [off bytes growable end_] in *.
  destruct (checked_add o _) as [needed|]; [|discriminate]. destruct (_ && _); [discriminate|]. exact H.
Qed.

Lemma wide_string_wrong : exists v b b' r, valid (TStr W2) v /\ in_range b /\ write (TStr W2) v b = (true, b') /\
  fst (read (TStr W2) (set_off (off b) b')) = Some r /\ r <> v.
Proof.
  exists [258; 772], (Buf [] 0 Native true). eexists. eexists.
  split; [cbn; split; [repeat constructor; lia|unfold len; cbn; lia]|]. split; [split; unfold len; cbn; lia|].
  split; [vm_compute; reflexivity|]. split; [vm_compute; reflexivity|]. discriminate.
Qed.
Lemma estimate_array_wrong : exists t v, narrow t = true /\ fixed_matrices t = true /\ valid t v /\
  forall e, len (encoding e t v) < 2 ^ 32 /\ estimate t v <> len (encoding e t v).
Proof.
  set (s := repeat 0 (Z.to_nat (2 ^ 31))).
  assert (Hs : len s = 2 ^ 31) by (unfold len, s; rewrite repeat_length; lia).
  assert (HF : Forall (fun c => 0 <= c < 256) s) by (apply Forall_forall; intros x Hx; apply repeat_spec in Hx; lia).
  clearbody s.
  exists (TArr 1 (TStr W1)), [s]. split; [reflexivity|]. split; [reflexivity|].
  split; [cbn [valid length size_of]; split; [reflexivity|]; constructor; [split; [exact HF|lia]|constructor]|].
  intros e. cbn [encoding map concat estimate fold_left size_of]. rewrite app_nil_r, len_app, len_int_bytes.
  rewrite (proj2 (char_bytes_narrow s HF)), Hs. split; [lia|]. vm_compute. discriminate.
Qed.
