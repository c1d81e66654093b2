(** Proofs about the buffer model. *)
From Coq Require Import ZArith List Bool Lia Arith.
From Coq Require Import ZifyBool ZifyNat.
From Verif Require Import BufferModel BufferSpec.
Import ListNotations.
Open Scope Z_scope.

(** ** Integers as bytes *)
Lemma le_bytes_length w : forall v, length (le_bytes w v) = w.
Proof. induction w; intros; cbn; auto. Qed.
Lemma le_bytes_map w : forall v, le_bytes w v = map (byte v) (seq 0 w).
Proof.
  induction w as [|w IH]; intros v; [reflexivity|]. cbn [le_bytes seq map].
  f_equal; [unfold byte; cbn; rewrite Z.div_1_r; reflexivity|].
  rewrite IH, <- seq_shift, map_map. apply map_ext. intros k. unfold byte.
  rewrite Nat2Z.inj_succ, Z.pow_succ_r by lia. rewrite Z.div_div by lia. reflexivity.
Qed.
Lemma rev_seq_map {A} (f : nat -> A) n : rev (map f (seq 0 n)) = map (fun k => f (n - 1 - k)%nat) (seq 0 n).
Proof.
  induction n as [|n IH]; [reflexivity|].
  rewrite seq_S at 1. rewrite map_app, rev_app_distr. cbn [map rev app]. rewrite IH.
  cbn [seq map]. f_equal; [f_equal; lia|]. rewrite <- seq_shift, map_map. apply map_ext_in.
  intros k Hk. apply in_seq in Hk. f_equal. lia.
Qed.
Lemma be_bytes_map w v : be_bytes w v = map (fun k => byte v (w - 1 - k)) (seq 0 w).
Proof. unfold be_bytes. rewrite le_bytes_map. apply rev_seq_map. Qed.
Lemma int_bytes_little n v : int_bytes Little n v = le_bytes n v.
Proof. symmetry. apply le_bytes_map. Qed.
Lemma int_bytes_native n v : int_bytes Native n v = le_bytes n v.
Proof. symmetry. apply le_bytes_map. Qed.
Lemma int_bytes_big n v : int_bytes Big n v = be_bytes n v.
Proof. symmetry. apply be_bytes_map. Qed.
Lemma int_bytes_length e n v : length (int_bytes e n v) = n.
Proof. unfold int_bytes. rewrite map_length, seq_length. reflexivity. Qed.
Lemma int_bytes_one e v : int_bytes e 1 v = le_bytes 1 v.
Proof. destruct e; [apply int_bytes_native| |apply int_bytes_little]. rewrite int_bytes_big. reflexivity. Qed.
Lemma le_value_bytes w : forall v, 0 <= v < 256 ^ Z.of_nat w -> le_value (le_bytes w v) = v.
Proof.
  induction w as [|w IH]; intros v Hv; cbn [le_bytes le_value]; [cbn in Hv; lia|].
  rewrite Nat2Z.inj_succ, Z.pow_succ_r in Hv by lia.
  rewrite IH; [pose proof (Z.div_mod v 256 ltac:(lia)); lia|].
  split; [apply Z.div_pos; lia|apply Z.div_lt_upper_bound; lia].
Qed.
Lemma be_value_bytes w v : 0 <= v < 256 ^ Z.of_nat w -> be_value (be_bytes w v) = v.
Proof. intros. unfold be_value, be_bytes. rewrite rev_involutive. apply le_value_bytes. assumption. Qed.
Lemma size_of_pos w : (1 <= size_of w <= 8)%nat.
Proof. destruct w; cbn; lia. Qed.

Lemma len_app {A} (a b : list A) : len (a ++ b) = len a + len b.
Proof. unfold len. rewrite app_length. lia. Qed.
Lemma len_nonneg {A} (a : list A) : 0 <= len a.
Proof. unfold len. lia. Qed.
Lemma len_cons {A} (x : A) l : len (x :: l) = 1 + len l.
Proof. unfold len. cbn [length]. lia. Qed.

(** write_int_at writes the bytes of the integer. *)
Lemma write_int_at_eq b o w v : write_int_at b o w v = write_bytes_at b o (int_bytes (end_ b) (size_of w) v).
Proof.
  unfold write_int_at. destruct w; [rewrite int_bytes_one; destruct (end_ b); reflexivity|..];
  destruct (end_ b); rewrite ?int_bytes_native, ?int_bytes_little, ?int_bytes_big; reflexivity.
Qed.
(** and read_int_at reads them. *)
Lemma read_int_at_bytes b o w v : 0 <= v < 256 ^ Z.of_nat (size_of w) ->
  forall b', read_bytes_at b o (Z.of_nat (size_of w)) = (Some (int_bytes (end_ b) (size_of w) v), b') ->
  read_int_at b o w = (Some v, b').
Proof.
  intros Hv b' H. unfold read_int_at. destruct w.
  - change 1 with (Z.of_nat (size_of W1)). rewrite H. change (size_of W1) with 1%nat. rewrite int_bytes_one.
    rewrite (le_value_bytes 1 v Hv). reflexivity.
  - rewrite H. destruct (end_ b); rewrite ?int_bytes_native, ?int_bytes_little, ?int_bytes_big, ?le_value_bytes, ?be_value_bytes by assumption; reflexivity.
  - rewrite H. destruct (end_ b); rewrite ?int_bytes_native, ?int_bytes_little, ?int_bytes_big, ?le_value_bytes, ?be_value_bytes by assumption; reflexivity.
  - rewrite H. destruct (end_ b); rewrite ?int_bytes_native, ?int_bytes_little, ?int_bytes_big, ?le_value_bytes, ?be_value_bytes by assumption; reflexivity.
Qed.

(** ** Writing at the cursor *)
Definition fitsb (b : buffer) (d : list Z) : bool :=
  (off b + len d <? 2 ^ 64) && (growable b || (off b + len d <=? len (bytes b))).
Lemma fitsb_spec b d : fitsb b d = true <-> fits b d.
Proof. unfold fitsb, fits. destruct (growable b); lia. Qed.
Lemma fits_dec b d : {fits b d} + {~ fits b d}.
Proof. destruct (fitsb b d) eqn:E; [left; apply fitsb_spec; exact E|right; intros H; apply fitsb_spec in H; congruence]. Qed.

Lemma write_bytes_fits b d : in_range b -> fits b d -> write_bytes_at b (off b) d = (true, put b d).
Proof.
  intros [[Ho1 Ho2] Hl] [Hf Hg]. unfold write_bytes_at, checked_add.
  replace (off b + len d <? 2 ^ 64) with true by lia.
  replace ((len (bytes b) <? off b + len d) && negb (growable b)) with false by (destruct Hg as [->|]; lia).
  unfold put, store. destruct (len (bytes b) <? off b + len d) eqn:C; [|reflexivity].
  unfold resize. rewrite (firstn_all2 (bytes b)) by (unfold len in *; lia). f_equal. f_equal.
  rewrite firstn_app. replace (Z.to_nat (off b) - length (bytes b))%nat with 0%nat by (unfold len in *; lia).
  cbn [firstn]. rewrite app_nil_r. f_equal. f_equal.
  rewrite (skipn_all2 (bytes b)) by (unfold len in *; lia). apply skipn_all2. rewrite app_length, repeat_length. unfold len in *. lia.
Qed.
Lemma write_bytes_not_fits b d : ~ fits b d -> write_bytes_at b (off b) d = (false, b).
Proof.
  intros N. unfold write_bytes_at, checked_add. destruct (off b + len d <? 2 ^ 64) eqn:C; [|reflexivity].
  replace ((len (bytes b) <? off b + len d) && negb (growable b)) with true; [reflexivity|].
  unfold fits in N. destruct (growable b); cbn [negb]; [exfalso; apply N; lia|].
  rewrite andb_true_r. symmetry. apply Z.ltb_lt. apply Z.nle_gt. intros L. apply N. lia.
Qed.

Lemma put_length b d : in_range b -> len (bytes (put b d)) = Z.max (len (bytes b)) (off b + len d).
Proof.
  intros [[Ho1 Ho2] Hl]. unfold put, len in *. cbn [bytes]. rewrite !app_length, firstn_length, skipn_length. lia.
Qed.
Lemma put_in_range b d : in_range b -> fits b d -> in_range (put b d).
Proof.
  intros HR HF. pose proof (put_length b d HR) as HL. destruct HR as [[? ?] ?]. destruct HF as [? _].
  pose proof (len_nonneg d). split; [cbn [put off]|]; rewrite HL; lia.
Qed.
Lemma skipn_skipn' {A} n m (l : list A) : skipn n (skipn m l) = skipn (m + n) l.
Proof. revert l. induction m as [|m IH]; intros l; [reflexivity|]. destruct l; cbn; [apply skipn_nil|apply IH]. Qed.
Lemma put_put b d1 d2 : in_range b -> put (put b d1) d2 = put b (d1 ++ d2).
Proof.
  intros [[Ho1 Ho2] Hl]. unfold put. cbn [bytes off end_ growable]. f_equal.
  - rewrite Z2Nat.inj_add by (auto using len_nonneg). replace (Z.to_nat (len d1)) with (length d1) by (unfold len; lia).
    set (o := Z.to_nat (off b)). assert (Hfo : length (firstn o (bytes b)) = o) by (rewrite firstn_length; unfold len in *; lia).
    assert (E1 : firstn (o + length d1) (firstn o (bytes b) ++ d1 ++ skipn (o + length d1) (bytes b)) = firstn o (bytes b) ++ d1).
    { rewrite app_assoc, firstn_app. rewrite app_length, Hfo, Nat.sub_diag. cbn [firstn]. rewrite app_nil_r.
      rewrite firstn_all2; [reflexivity|]. rewrite app_length. lia. }
    assert (E2 : skipn (o + length d1 + length d2) (firstn o (bytes b) ++ d1 ++ skipn (o + length d1) (bytes b)) =
      skipn (o + length (d1 ++ d2)) (bytes b)).
    { rewrite app_assoc, skipn_app. rewrite skipn_all2 by (rewrite app_length; lia). cbn [app].
      rewrite app_length, Hfo, skipn_skipn', app_length. f_equal. lia. }
    rewrite E1, E2, !app_assoc. reflexivity.
  - rewrite len_app. lia.
Qed.
Lemma fits_app b d1 d2 : in_range b -> (fits b (d1 ++ d2) <-> fits b d1 /\ fits (put b d1) d2).
Proof.
  intros HR. pose proof (put_length b d1 HR) as HL. unfold fits. rewrite HL. cbn [put off growable]. rewrite len_app.
  pose proof (len_nonneg d1). pose proof (len_nonneg d2). destruct (growable b); split; intros; lia.
Qed.
Lemma put_nil b : in_range b -> put b [] = b.
Proof.
  intros [[H1 H2] H3]. unfold put. cbn [length app]. rewrite Nat.add_0_r, firstn_skipn. destruct b; cbn. f_equal. unfold len; cbn; lia.
Qed.
Lemma put_endian b d : end_ (put b d) = end_ b. Proof. reflexivity. Qed.

(** [f] writes [d] at the cursor if it fits and fails otherwise. *)
Definition writes (f : buffer -> bool * buffer) (d : endian -> list Z) : Prop :=
  forall b, in_range b ->
    (fits b (d (end_ b)) -> f b = (true, put b (d (end_ b)))) /\ (~ fits b (d (end_ b)) -> fst (f b) = false).
Lemma writes_bytes d : writes (fun b => write_bytes_at b (off b) d) (fun _ => d).
Proof.
  intros b HR. split; intros H; [apply write_bytes_fits; auto|]. rewrite write_bytes_not_fits by exact H. reflexivity.
Qed.
Lemma writes_int w v : writes (write_int w v) (fun e => int_bytes e (size_of w) v).
Proof. intros b HR. unfold write_int. rewrite write_int_at_eq. apply (writes_bytes _ b HR). Qed.
Lemma writes_seq f g d1 d2 : writes f d1 -> writes g d2 ->
  writes (fun b => match f b with (true, b1) => g b1 | (false, b1) => (false, b1) end) (fun e => d1 e ++ d2 e).
Proof.
  intros Hf Hg b HR. destruct (Hf b HR) as [F1 F2].
  destruct (fits_dec b (d1 (end_ b))) as [Y|N].
  - rewrite (F1 Y). destruct (Hg (put b (d1 (end_ b))) (put_in_range _ _ HR Y)) as [G1 G2].
    rewrite put_endian in G1, G2. rewrite (fits_app b _ _ HR). split; intros H.
    + rewrite (G1 (proj2 H)). rewrite put_put by exact HR. reflexivity.
    + apply G2. tauto.
  - specialize (F2 N). split; intros H.
    + apply fits_app in H; [|exact HR]. tauto.
    + destruct (f b) as [[] ?]; [discriminate|reflexivity].
Qed.
Lemma writes_nil : writes (fun b => (true, b)) (fun _ => []).
Proof.
  intros b HR. split; intros H; [rewrite put_nil by exact HR; reflexivity|].
  exfalso. apply H. destruct HR as [? ?]. unfold fits, len in *. cbn [length]. lia.
Qed.
Lemma writes_list {A} (f : A -> buffer -> bool * buffer) (d : A -> endian -> list Z) l :
  (forall x, In x l -> writes (f x) (d x)) ->
  writes (write_list f l) (fun e => concat (map (fun x => d x e) l)).
Proof.
  induction l as [|x l IH]; intros H; cbn [write_list map concat]; [apply writes_nil|].
  apply (writes_seq (f x) (write_list f l) (d x)); [apply H; left; reflexivity|apply IH; intros y Hy; apply H; right; exact Hy].
Qed.
Lemma char_bytes_narrow s : Forall (fun c => 0 <= c < 256) s ->
  char_bytes W1 s = s /\ concat (map (int_bytes Little 1) s) = s.
Proof.
  intros H. assert (E : char_bytes W1 s = s).
  { unfold char_bytes. induction H as [|c s Hc Hs IH]; [reflexivity|]. cbn [map concat size_of le_bytes app].
    rewrite Z.mod_small by lia. f_equal. exact IH. }
  split; [exact E|]. rewrite <- E at 2. unfold char_bytes. f_equal. apply map_ext. intros. apply int_bytes_little.
Qed.

Theorem write_encoding t : narrow t = true -> forall v, valid t v -> writes (write t v) (fun e => encoding e t v).
Proof.
  induction t as [w|cw|n t IH|t IH|ta IHa tb IHb|dr dc t IH]; intros Hn v Hv; cbn [narrow] in Hn; cbn [valid] in Hv.
  - cbn [write encoding]. apply writes_int.
  - destruct cw; try discriminate. destruct Hv as [Hv Hl]. cbn [size_of] in Hv. change (256 ^ Z.of_nat 1) with 256 in Hv.
    destruct (char_bytes_narrow v Hv) as [E1 E2]. cbn [write encoding size_of].
    rewrite E1, E2, firstn_all. apply (writes_seq (write_int W8 (len v)) _ (fun e => int_bytes e 8 (len v)) (fun _ => v)).
    + apply (writes_int W8).
    + apply writes_bytes.
  - destruct Hv as [_ Hv]. cbn [write encoding]. apply (writes_list (write t) (fun x e => encoding e t x)).
    intros x Hx. apply IH; [exact Hn|]. rewrite Forall_forall in Hv. auto.
  - destruct Hv as [Hv _]. cbn [write encoding].
    apply (writes_seq (write_int W8 (len v)) (write_list (write t) v) (fun e => int_bytes e 8 (len v))); [apply (writes_int W8)|].
    apply (writes_list (write t) (fun x e => encoding e t x)).
    intros x Hx. apply IH; [exact Hn|]. rewrite Forall_forall in Hv. auto.
  - apply andb_true_iff in Hn. destruct Hn as [Hna Hnb]. destruct Hv as [Hva Hvb]. cbn [write encoding].
    apply (writes_seq (write ta (fst v)) (write tb (snd v)) (fun e => encoding e ta (fst v))); auto.
  - destruct Hv as (_ & _ & _ & _ & _ & Hv). cbn [write encoding].
    apply (writes_seq (write_int W8 (fst (fst v))) _ (fun e => int_bytes e 8 (fst (fst v)))
      (fun e => int_bytes e 8 (snd (fst v)) ++ concat (map (encoding e t) (snd v)))); [apply (writes_int W8)|].
    apply (writes_seq (write_int W8 (snd (fst v))) (write_list (write t) (snd v)) (fun e => int_bytes e 8 (snd (fst v)))); [apply (writes_int W8)|].
    apply (writes_list (write t) (fun x e => encoding e t x)).
    intros x Hx. apply IH; [exact Hn|]. rewrite Forall_forall in Hv. auto.
Qed.

(** ** Reading at the cursor *)
Definition reads {A} (f : buffer -> option A * buffer) (d : endian -> list Z) (v : A) : Prop :=
  forall b pre post, bytes b = pre ++ d (end_ b) ++ post -> off b = len pre -> len (bytes b) < 2 ^ 64 ->
    f b = (Some v, set_off (len pre + len (d (end_ b))) b).
Lemma load_middle (pre d post : list Z) : load (len pre) (len d) (pre ++ d ++ post) = d.
Proof.
  unfold load, len. rewrite !Nat2Z.id. rewrite skipn_app, skipn_all, Nat.sub_diag. cbn [skipn app].
  rewrite firstn_app, firstn_all, Nat.sub_diag. cbn [firstn]. apply app_nil_r.
Qed.
Lemma read_bytes_middle b pre d post : bytes b = pre ++ d ++ post -> len (bytes b) < 2 ^ 64 ->
  read_bytes_at b (len pre) (len d) = (Some d, set_off (len pre + len d) b).
Proof.
  intros E L. unfold read_bytes_at, checked_add. assert (HL : len (bytes b) = len pre + len d + len post) by (rewrite E, !len_app; lia).
  pose proof (len_nonneg post). replace (len pre + len d <? 2 ^ 64) with true by lia.
  replace (len (bytes b) <? len pre + len d) with false by lia. rewrite E at 1. rewrite load_middle. reflexivity.
Qed.
Lemma reads_int w v : 0 <= v < 256 ^ Z.of_nat (size_of w) -> reads (read_int w) (fun e => int_bytes e (size_of w) v) v.
Proof.
  intros Hv b pre post E Ho L. unfold read_int. apply read_int_at_bytes; [exact Hv|]. rewrite Ho.
  replace (Z.of_nat (size_of w)) with (len (int_bytes (end_ b) (size_of w) v)) by (unfold len; rewrite int_bytes_length; reflexivity).
  apply (read_bytes_middle b pre _ post); auto.
Qed.
Lemma reads_bind {A B} (f : buffer -> option A * buffer) (g : A -> buffer -> option B * buffer) d1 d2 x y :
  reads f d1 x -> reads (g x) d2 y ->
  reads (fun b => match f b with (None, b1) => (None, b1) | (Some a, b1) => g a b1 end) (fun e => d1 e ++ d2 e) y.
Proof.
  intros Hf Hg b pre post E Ho L. rewrite <- app_assoc in E.
  rewrite (Hf b pre _ E Ho L).
  rewrite (Hg (set_off (len pre + len (d1 (end_ b))) b) (pre ++ d1 (end_ b)) post).
  - cbn [set_off end_ bytes off growable]. rewrite !len_app. f_equal. unfold set_off. cbn. f_equal. lia.
  - cbn [set_off bytes end_]. rewrite <- app_assoc. exact E.
  - cbn [set_off off]. rewrite len_app. reflexivity.
  - exact L.
Qed.
Lemma reads_ret {A} (v : A) : reads (fun b => (Some v, b)) (fun _ => []) v.
Proof. intros b pre post E Ho L. f_equal. destruct b. unfold set_off. cbn in *. f_equal. unfold len in *; cbn; lia. Qed.
Lemma reads_ext {A} (f g : buffer -> option A * buffer) d v : (forall b, f b = g b) -> reads f d v -> reads g d v.
Proof. intros H Hf b pre post E Ho L. rewrite <- H. eauto. Qed.
Lemma reads_ext' {A} (f : buffer -> option A * buffer) d d' v : (forall e, d e = d' e) -> reads f d v -> reads f d' v.
Proof. intros H Hf b pre post E Ho L. rewrite <- H in E |- *. eauto. Qed.
Lemma reads_map {A B} (f : buffer -> option A * buffer) (h : A -> B) d v : reads f d v ->
  reads (fun b => match f b with (Some a, b1) => (Some (h a), b1) | (None, b1) => (None, b1) end) d (h v).
Proof. intros Hf b pre post E Ho L. rewrite (Hf b pre post E Ho L). reflexivity. Qed.
Lemma reads_list {A} (f : buffer -> option A * buffer) (d : A -> endian -> list Z) l :
  (forall x, In x l -> reads f (d x) x) ->
  reads (read_list f (length l)) (fun e => concat (map (fun x => d x e) l)) l.
Proof.
  induction l as [|x l IH]; intros H; cbn [read_list length map concat]; [apply reads_ret|].
  apply (reads_ext (fun b => match f b with (None, b1) => (None, b1) | (Some a, b1) =>
    match read_list f (length l) b1 with (Some r, b2) => (Some (a :: r), b2) | (None, b2) => (None, b2) end end)).
  { intros b. destruct (f b) as [[a|] b1]; reflexivity. }
  apply (reads_bind f (fun a b1 => match read_list f (length l) b1 with (Some r, b2) => (Some (a :: r), b2) | (None, b2) => (None, b2) end) (d x)
    (fun e => concat (map (fun x => d x e) l)) x).
  - apply H. left. reflexivity.
  - apply reads_map. apply IH. intros y Hy. apply H. right. exact Hy.
Qed.
Lemma chars_narrow s : Forall (fun c => 0 <= c < 256) s -> chars 1 (length s) s = s.
Proof. induction 1 as [|c s Hc Hs IH]; [reflexivity|]. cbn [length chars firstn skipn le_value]. rewrite IH. f_equal. lia. Qed.

Theorem read_encoding t : narrow t = true -> forall v, valid t v -> reads (read t) (fun e => encoding e t v) v.
Proof.
  induction t as [w|cw|n t IH|t IH|ta IHa tb IHb|dr dc t IH]; intros Hn v Hv; cbn [narrow] in Hn; cbn [valid] in Hv.
  - cbn [read encoding]. apply reads_int. exact Hv.
  - destruct cw; try discriminate. destruct Hv as [Hv Hl]. cbn [size_of] in Hv. change (256 ^ Z.of_nat 1) with 256 in Hv.
    destruct (char_bytes_narrow v Hv) as [E1 E2]. cbn [read encoding size_of]. rewrite E2.
    apply (reads_bind (read_int W8) (fun n b1 => match read_bytes_at b1 (off b1) n with (None, b2) => (None, b2)
      | (Some d, b2) => (Some (chars 1 (Z.to_nat n) (d ++ repeat 0 (Z.to_nat n * 1 - length d))), b2) end)
      (fun e => int_bytes e 8 (len v)) (fun _ => v) (len v)).
    + apply (reads_int W8). change (256 ^ Z.of_nat (size_of W8)) with (2 ^ 64). pose proof (len_nonneg v). lia.
    + intros b pre post E Ho L. rewrite Ho. rewrite (read_bytes_middle b pre v post E L).
      replace (Z.to_nat (len v)) with (length v) by (unfold len; lia).
      replace (length v * 1 - length v)%nat with 0%nat by lia. cbn [repeat]. rewrite app_nil_r, chars_narrow by exact Hv. reflexivity.
  - destruct Hv as [Hlen Hv]. cbn [read encoding]. rewrite <- Hlen. apply (reads_list (read t) (fun x e => encoding e t x)).
    intros x Hx. apply IH; [exact Hn|]. rewrite Forall_forall in Hv. auto.
  - destruct Hv as [Hv Hl]. cbn [read encoding].
    apply (reads_bind (read_int W8) (fun n b1 => read_list (read t) (Z.to_nat n) b1) (fun e => int_bytes e 8 (len v))
      (fun e => concat (map (encoding e t) v)) (len v)).
    + apply (reads_int W8). change (256 ^ Z.of_nat (size_of W8)) with (2 ^ 64). pose proof (len_nonneg v). lia.
    + replace (Z.to_nat (len v)) with (length v) by (unfold len; lia).
      apply (reads_list (read t) (fun x e => encoding e t x)).
      intros x Hx. apply IH; [exact Hn|]. rewrite Forall_forall in Hv. auto.
  - apply andb_true_iff in Hn. destruct Hn as [Hna Hnb]. destruct Hv as [Hva Hvb]. cbn [read encoding].
    destruct v as [x y]. cbn [fst snd] in *.
    apply (reads_bind (read ta) (fun x b1 => match read tb b1 with (None, b2) => (None, b2) | (Some y, b2) => (Some (x, y), b2) end)
      (fun e => encoding e ta x) (fun e => encoding e tb y) x); auto.
    apply (reads_ext (fun b1 => match read tb b1 with (Some y, b2) => (Some (x, y), b2) | (None, b2) => (None, b2) end)).
    { intros b. destruct (read tb b) as [[?|] ?]; reflexivity. }
    apply (reads_map (read tb) (fun y => (x, y))). auto.
  - destruct Hv as (Hr & Hc & Hrc & Hdr & Hdc & Hv). cbn [read encoding]. destruct v as [[r c] l]. cbn [fst snd] in *.
    apply (reads_bind (read_int W8) (fun r b1 => match read_int W8 b1 with (None, b2) => (None, b2)
      | (Some c, b2) => if dim_ok dr r && dim_ok dc c then match read_list (read t) (Z.to_nat (r * c)) b2 with
         (None, b3) => (None, b3) | (Some l, b3) => (Some (r, c, l), b3) end else (None, b2) end)
      (fun e => int_bytes e 8 r) (fun e => int_bytes e 8 c ++ concat (map (encoding e t) l)) r).
    { apply (reads_int W8). change (256 ^ Z.of_nat (size_of W8)) with (2 ^ 64). lia. }
    apply (reads_bind (read_int W8) (fun c b2 => if dim_ok dr r && dim_ok dc c then match read_list (read t) (Z.to_nat (r * c)) b2 with
         (None, b3) => (None, b3) | (Some l, b3) => (Some (r, c, l), b3) end else (None, b2))
      (fun e => int_bytes e 8 c) (fun e => concat (map (encoding e t) l)) c).
    { apply (reads_int W8). change (256 ^ Z.of_nat (size_of W8)) with (2 ^ 64). lia. }
    assert (D1 : dim_ok dr r = true) by (destruct dr as [x|]; [cbn; specialize (Hdr x eq_refl); lia|reflexivity]).
    assert (D2 : dim_ok dc c = true) by (destruct dc as [x|]; [cbn; specialize (Hdc x eq_refl); lia|reflexivity]).
    rewrite D1, D2. cbn [andb]. rewrite Hrc. unfold len at 1. rewrite Nat2Z.id.
    apply (reads_map (read_list (read t) (length l)) (fun l => (r, c, l))).
    apply (reads_list (read t) (fun x e => encoding e t x)).
    intros x Hx. apply IH; [exact Hn|]. rewrite Forall_forall in Hv. auto.
Qed.

(** ** EstimateSize *)
Lemma concat_len_const {A} (f : A -> list Z) (s : Z) l : (forall x, In x l -> len (f x) = s) -> len (concat (map f l)) = len l * s.
Proof.
  induction l as [|x l IH]; intros H; [reflexivity|]. cbn [map concat]. rewrite len_app, len_cons, IH, H; [ring|left; reflexivity|].
  intros y Hy. apply H. right. exact Hy.
Qed.
Lemma sizeof_encoding e t : fixed t = true -> forall v, valid t v -> len (encoding e t v) = sizeof t.
Proof.
  induction t as [w|cw|n t IH|t IH|ta IHa tb IHb|dr dc t IH]; intros Hf v Hv; cbn [fixed] in Hf; try discriminate; cbn [encoding sizeof valid] in *.
  - unfold len. rewrite int_bytes_length. reflexivity.
  - destruct Hv as [Hn Hv]. rewrite (concat_len_const _ (sizeof t)).
    + f_equal. unfold len. f_equal. exact Hn.
    + intros x Hx. apply IH; auto. rewrite Forall_forall in Hv. auto.
  - apply andb_true_iff in Hf. destruct Hf, Hv. rewrite len_app, IHa, IHb by assumption. reflexivity.
Qed.
Lemma estimate_spec e t : narrow t = true -> fixed_matrices t = true -> forall v, valid t v ->
  len (encoding e t v) < 2 ^ 31 -> estimate t v = len (encoding e t v).
Proof.
  induction t as [w|cw|n t IH|t IH|ta IHa tb IHb|dr dc t IH]; intros Hn Hm v Hv HL; cbn [narrow fixed_matrices] in Hn, Hm; cbn [estimate encoding valid] in *.
  - unfold len. rewrite int_bytes_length. reflexivity.
  - destruct cw; try discriminate. destruct Hv as [Hv Hl]. cbn [size_of] in Hv. change (256 ^ Z.of_nat 1) with 256 in Hv.
    destruct (char_bytes_narrow v Hv) as [E1 E2]. cbn [size_of] in *. rewrite E2 in *. rewrite len_app in *.
    replace (len (int_bytes e 8 (len v))) with 8 in * by (unfold len at 1; rewrite int_bytes_length; reflexivity).
    pose proof (len_nonneg v). unfold u64. apply Z.mod_small. lia.
  - destruct Hv as [_ Hv].
    assert (G : forall acc, 0 <= acc -> acc + len (concat (map (encoding e t) v)) < 2 ^ 31 ->
      fold_left (fun acc x => to_int32 (u64 (u64 acc + estimate t x))) v acc = acc + len (concat (map (encoding e t) v))).
    { clear HL. induction Hv as [|x l Hx Hv IHl]; intros acc Ha HB; cbn [fold_left map concat]; [unfold len; cbn; lia|].
      cbn [map concat] in HB. rewrite len_app in *. pose proof (len_nonneg (encoding e t x)). pose proof (len_nonneg (concat (map (encoding e t) l))).
      rewrite (IH Hn Hm x Hx) by lia.
      replace (to_int32 (u64 (u64 acc + len (encoding e t x)))) with (acc + len (encoding e t x)).
      - rewrite IHl by lia. lia.
      - unfold u64, to_int32. rewrite !(Z.mod_small _ (2 ^ 64)) by lia. rewrite Z.mod_small by lia. lia. }
    rewrite G by lia. unfold u64. apply Z.mod_small. pose proof (len_nonneg (concat (map (encoding e t) v))). lia.
  - destruct Hv as [Hv _]. rewrite len_app in *.
    replace (len (int_bytes e 8 (len v))) with 8 in * by (unfold len at 1; rewrite int_bytes_length; reflexivity).
    assert (G : forall acc, 0 <= acc -> acc + len (concat (map (encoding e t) v)) < 2 ^ 31 ->
      fold_left (fun acc x => u64 (acc + estimate t x)) v acc = acc + len (concat (map (encoding e t) v))).
    { clear HL. induction Hv as [|x l Hx Hv IHl]; intros acc Ha HB; cbn [fold_left map concat]; [unfold len; cbn; lia|].
      cbn [map concat] in HB. rewrite len_app in *. pose proof (len_nonneg (encoding e t x)). pose proof (len_nonneg (concat (map (encoding e t) l))).
      rewrite (IH Hn Hm x Hx) by lia.
      replace (u64 (acc + len (encoding e t x))) with (acc + len (encoding e t x)).
      - rewrite IHl by lia. lia.
      - unfold u64. rewrite Z.mod_small by lia. reflexivity. }
    rewrite G by lia. reflexivity.
  - apply andb_true_iff in Hn, Hm. destruct Hn, Hm, Hv. rewrite len_app in *.
    pose proof (len_nonneg (encoding e ta (fst v))). pose proof (len_nonneg (encoding e tb (snd v))).
    rewrite IHa, IHb by (auto; lia). unfold u64. apply Z.mod_small. lia.
  - destruct Hv as (_ & _ & _ & _ & _ & Hv). rewrite !len_app in *.
    assert (E8 : forall x, len (int_bytes e 8 x) = 8) by (intros; unfold len; rewrite int_bytes_length; reflexivity).
    rewrite !E8 in *.
    rewrite (concat_len_const (encoding e t) (sizeof t)) in *.
    2, 3: intros x Hx; apply sizeof_encoding; auto; rewrite Forall_forall in Hv; auto.
    assert (M : forall k s, 0 <= k -> 0 <= s -> 8 + (8 + k * s) < 2 ^ 31 -> u64 (k * s + 16) = 8 + (8 + k * s)).
    { intros k s Hk Hs HB. unfold u64. rewrite Z.mod_small by nia. lia. }
    apply M; [apply len_nonneg| |exact HL]. clear. induction t; cbn [sizeof]; nia.
Qed.
