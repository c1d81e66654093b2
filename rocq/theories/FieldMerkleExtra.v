(** Binding, the power-of-two case, and the counterexamples. *)
From Coq Require Import List Arith Bool Lia Permutation Sorting.Sorted.
From Verif Require Import FieldMerkleSpec FieldMerkleModel FieldMerkleProof FieldMerkleProof2 FieldMerkleProof3.
Import ListNotations.
Open Scope nat_scope.

Lemma is_log_pow2 : forall e, is_log e (Nat.pow 2 e).
Proof. intros e. split; [lia|]. intros e' H. apply (Nat.pow_le_mono_r_iff 2); lia. Qed.
Lemma is_log_fun : forall e e' n, is_log e n -> is_log e' n -> e = e'.
Proof. intros e e' n H H'. rewrite (is_log_unique e n), (is_log_unique e' n); auto. Qed.
Lemma list_max_in : forall l, l <> [] -> In (list_max l) l.
Proof.
  induction l as [|a r IH]; intros H; [now elim H|]. cbn. destruct r as [|b r']; [left; cbn; lia|].
  destruct (Nat.max_spec a (list_max (b :: r'))) as [[_ E]|[_ E]].
  - right. change (fold_right Nat.max 0 (b :: r')) with (list_max (b :: r')). rewrite E. apply IH. discriminate.
  - left. change (fold_right Nat.max 0 (b :: r')) with (list_max (b :: r')). now rewrite E.
Qed.

(** Heights that are powers of two make every index below the tallest height addressable. *)
Lemma pow2_addressable : forall {F : Type} (leaves : list (list (list F))) index, leaves <> [] ->
  (forall m, In m leaves -> exists e, length m = Nat.pow 2 e) -> index < list_max (map (@length _) leaves) ->
  acceptable leaves /\
  (forall m row, In m leaves -> addressed_row (list_max (map (@length _) leaves)) (length m) index row -> row < length m).
Proof.
  intros F leaves index Hne Hp Hi. split; [split; [exact Hne|split]|].
  - intros m Hm. destruct (Hp m Hm) as [e ->]. apply pow2_pos'.
  - intros m m' e Hm Hm' He He'. destruct (Hp m Hm) as [a Ha], (Hp m' Hm') as [b Hb]. rewrite Ha, Hb in *.
    rewrite (is_log_fun a e (Nat.pow 2 a)), (is_log_fun b e (Nat.pow 2 b)); auto using is_log_pow2.
  - intros m row Hm (e & e' & He & He' & ->).
    assert (HM : In (list_max (map (@length _) leaves)) (map (@length _) leaves)) by (apply list_max_in; destruct leaves; [now elim Hne|discriminate]).
    apply in_map_iff in HM. destruct HM as (m0 & E0 & Hm0). destruct (Hp m0 Hm0) as [a Ha]. destruct (Hp m Hm) as [b Hb].
    rewrite E0 in Ha. rewrite Ha in *. rewrite Hb in *.
    rewrite <- (is_log_fun a e (Nat.pow 2 a)), <- (is_log_fun b e' (Nat.pow 2 b)) by auto using is_log_pow2.
    assert (Hba : b <= a).
    { apply (Nat.pow_le_mono_r_iff 2); [lia|]. rewrite <- Ha, <- Hb.
      assert (G : Forall (fun k => k <= list_max (map (@length _) leaves)) (map (@length _) leaves)) by (apply list_max_le; lia).
      rewrite Forall_forall in G. apply G. now apply in_map. }
    apply Nat.div_lt_upper_bound; [apply Nat.pow_nonzero; lia|]. rewrite <- Nat.pow_add_r. replace (a - b + b) with a by lia. exact Hi.
Qed.

Section Binding.
  Context {F P D : Type}.
  Variables (coords : F -> list P) (hash : list P -> D) (compress : D -> D -> D) (digest_eqb : D -> D -> bool) (d : nat).
  Hypothesis eqb_spec : forall x y, digest_eqb x y = true <-> x = y.
  Hypothesis P_dec : forall x y : P, {x = y} + {x <> y}.
  Hypothesis coords_len : forall x, length (coords x) = d.
  Hypothesis coords_inj : forall x y, coords x = coords y -> x = y.

  Lemma D_dec : forall x y : D, {x = y} + {x <> y}.
  Proof. intros x y. destruct (digest_eqb x y) eqn:E; [left; now apply eqb_spec|right; intros H; apply eqb_spec in H; congruence]. Qed.

  Lemma app_inj_len : forall {A} (a b c e : list A), length a = length c -> a ++ b = c ++ e -> a = c /\ b = e.
  Proof. intros A a. induction a as [|x a IH]; intros b [|y c] e L H; try discriminate; [auto|]. injection L as L. injection H as -> H. destruct (IH _ _ _ L H) as [-> ->]. auto. Qed.
  Lemma flat_coords_inj : forall l l', length l = length l' -> flat_map coords l = flat_map coords l' -> l = l'.
  Proof.
    induction l as [|x l IH]; intros [|y l'] L H; try discriminate; [reflexivity|]. cbn in H.
    apply app_inj_len in H; [|rewrite !coords_len; reflexivity]. destruct H as [H1 H2]. rewrite (coords_inj _ _ H1), (IH l'); auto.
  Qed.
  Lemma concat_inj : forall (rs rs' : list (list F)), Forall2 (fun r r' => length r = length r') rs rs' -> concat rs = concat rs' -> rs = rs'.
  Proof. intros rs rs' H. induction H as [|r r' rs rs' L _ IH]; intros E; [reflexivity|]. cbn in E. apply app_inj_len in E; [|exact L]. destruct E as [-> E]. now rewrite IH. Qed.

  Definition Collision (l l' : list (call P D)) : Prop :=
    exists k c c', nth_error l k = Some c /\ nth_error l' k = Some c' /\ collide hash compress c c'.
  Lemma coll_cons : forall a b l l', Collision l l' -> Collision (a :: l) (b :: l').
  Proof. intros a b l l' (k & c & c' & H1 & H2 & H3). exists (S k), c, c'. auto. Qed.
  Lemma coll_head : forall c c' l l', collide hash compress c c' -> Collision (c :: l) (c' :: l').
  Proof. intros. exists 0, c, c'. auto. Qed.

  Variables o o' : list (list F).
  Hypothesis widths : Forall2 (fun r r' => length r = length r') o o'.

  Lemma widths_nth : forall i r r', nth_error o i = Some r -> nth_error o' i = Some r' -> length r = length r'.
  Proof.
    intros i. revert widths. generalize o o'. clear. induction i as [|i IH]; intros l l' H r r' H1 H2; destruct H as [|x y l l' L H]; try discriminate.
    - cbn in *. congruence.
    - eapply IH; eauto.
  Qed.

  Lemma hash_step : forall dims v v', opened_values_of coords o dims = Some v -> opened_values_of coords o' dims = Some v' ->
    v = v' -> forall x, In x dims -> nth_error o (fst x) = nth_error o' (fst x).
  Proof.
    intros dims v v' H H' E. unfold opened_values_of in *.
    destruct (map_opt (fun x : nat * nat => nth_error o (fst x)) dims) as [rs|] eqn:E1; [|discriminate].
    destruct (map_opt (fun x : nat * nat => nth_error o' (fst x)) dims) as [rs'|] eqn:E2; [|discriminate].
    injection H as <-. injection H' as <-.
    assert (W : Forall2 (fun r r' => length r = length r') rs rs').
    { clear E. revert rs rs' E1 E2. induction dims as [|x dims IH]; intros rs rs' E1 E2; cbn in E1, E2; [injection E1 as <-; injection E2 as <-; constructor|].
      destruct (nth_error o (fst x)) as [r|] eqn:A; [|discriminate]. destruct (nth_error o' (fst x)) as [r'|] eqn:B; [|discriminate].
      destruct (map_opt (fun x : nat * nat => nth_error o (fst x)) dims); [|discriminate]. destruct (map_opt (fun x : nat * nat => nth_error o' (fst x)) dims); [|discriminate].
      injection E1 as <-. injection E2 as <-. constructor; [eapply widths_nth; eauto|auto]. }
    assert (LC : length (concat rs) = length (concat rs')) by (clear - W; induction W as [|x y l l' H _ IH]; [reflexivity|]; cbn; rewrite !app_length, H, IH; reflexivity).
    assert (R : rs = rs') by (apply concat_inj; [exact W|]; apply flat_coords_inj; assumption). subst rs'.
    intros x Hx. apply In_nth_error in Hx. destruct Hx as [k Hk].
    rewrite <- (map_opt_nth _ _ _ E1 k x Hk), <- (map_opt_nth _ _ _ E2 k x Hk). reflexivity.
  Qed.

  Lemma compress_step : forall a b a' b', compress a b = compress a' b' -> (a = a' /\ b = b') \/ collide hash compress (CallCompress a b) (CallCompress a' b').
  Proof.
    intros a b a' b' H. destruct (D_dec a a') as [Ha|Ha]; [destruct (D_dec b b') as [Hb|Hb]; [auto|]|]; right; (split; [congruence|exact H]).
  Qed.
  Lemma hash_eq_step : forall v v', hash v = hash v' -> v = v' \/ collide hash compress (CallHash v) (CallHash v').
  Proof. intros v v' H. destruct (list_eq_dec P_dec v v') as [E|E]; [auto|right; split; assumption]. Qed.

  Notation desc := (StronglySorted (fun x y : nat * nat => snd y <= snd x)).
  Lemma desc_skipn' : forall n (zs : list (nat * nat)), desc zs -> desc (skipn n zs).
  Proof. induction n as [|n IH]; intros zs H; [exact H|]. destruct zs as [|z r]; [exact H|]. cbn. inversion H; auto. Qed.
  Lemma below_after' : forall t (zs : list (nat * nat)), desc zs -> (forall z, In z zs -> log2_ceiling (snd z) <= t) ->
    forall z, In z (skipn (count_layers (Nat.pow 2 t) zs) zs) -> log2_ceiling (snd z) < t.
  Proof.
    intros t zs HS B z Hz. unfold count_layers in *. set (f := fun x : nat * nat => Nat.pow 2 t =? bit_ceil (snd x)) in *.
    pose proof (count_prefix_skipn f zs) as C. pose proof (desc_skipn' (count_prefix f zs) zs HS) as S'.
    assert (I : forall x, In x (skipn (count_prefix f zs) zs) -> In x zs) by (intros x Hx; rewrite <- (firstn_skipn (count_prefix f zs) zs); apply in_or_app; now right).
    destruct (skipn (count_prefix f zs) zs) as [|a r]; [destruct Hz|].
    unfold f in C. rewrite Nat.eqb_sym, bit_ceil_eqb in C. apply Nat.eqb_neq in C. pose proof (B a (I a (or_introl eq_refl))) as Ba.
    destruct Hz as [<-|Hz]; [lia|]. apply StronglySorted_inv in S'. destruct S' as [_ FA]. rewrite Forall_forall in FA. specialize (FA z Hz). cbn in FA.
    pose proof (log_mono _ _ FA). lia.
  Qed.

  Lemma loop_binding : forall t proof proof' root root' idx dims r, length proof = t -> length proof' = t ->
    desc dims -> (forall x, In x dims -> log2_ceiling (snd x) < t) ->
    verify_loop coords hash compress o proof root idx (Nat.pow 2 t) dims = Some r ->
    verify_loop coords hash compress o' proof' root' idx (Nat.pow 2 t) dims = Some r ->
    Collision (verify_loop_calls coords hash compress o proof root idx (Nat.pow 2 t) dims) (verify_loop_calls coords hash compress o' proof' root' idx (Nat.pow 2 t) dims) \/
    (root = root' /\ proof = proof' /\ forall x, In x dims -> nth_error o (fst x) = nth_error o' (fst x)).
  Proof.
    induction t as [|t IH]; intros proof proof' root root' idx dims r L L' HS HB V V'.
    - destruct proof; [|discriminate]. destruct proof'; [|discriminate]. cbn in V, V'. right. repeat split; [congruence|]. intros x Hx. specialize (HB x Hx). lia.
    - destruct proof as [|s proof]; [discriminate|]. destruct proof' as [|s' proof']; [discriminate|]. injection L as L. injection L' as L'.
      cbn [verify_loop verify_loop_calls] in *. rewrite pow2_half in *. set (n := count_layers (Nat.pow 2 t) dims) in *.
      set (c := if Nat.even idx then CallCompress root s else CallCompress s root). set (c' := if Nat.even idx then CallCompress root' s' else CallCompress s' root').
      set (r1 := if Nat.even idx then compress root s else compress s root) in *. set (r1' := if Nat.even idx then compress root' s' else compress s' root') in *.
      assert (ST : r1 = r1' -> (root = root' /\ s = s') \/ collide hash compress c c').
      { unfold r1, r1', c, c'. destruct (Nat.even idx); intros E; apply compress_step in E; tauto. }
      assert (HB' : forall x, In x (skipn n dims) -> log2_ceiling (snd x) < t) by (apply below_after'; [exact HS|intros x Hx; specialize (HB x Hx); lia]).
      assert (HF : forall x, In x dims -> In x (firstn n dims) \/ In x (skipn n dims)) by (intros x Hx; rewrite <- (firstn_skipn n dims) in Hx; now apply in_app_or).
      destruct (Nat.ltb_spec 0 n) as [Hn|Hn].
      + destruct (opened_values_of coords o (firstn n dims)) as [v|] eqn:E1; [|discriminate].
        destruct (opened_values_of coords o' (firstn n dims)) as [v'|] eqn:E2; [|discriminate].
        destruct (IH _ _ _ _ _ _ _ L L' (desc_skipn' n dims HS) HB' V V') as [C|(ER & EP & EO)]; [left; now repeat apply coll_cons|].
        apply compress_step in ER. destruct ER as [[ER EH]|C]; [|left; do 2 apply coll_cons; now apply coll_head].
        apply hash_eq_step in EH. destruct EH as [EH|C]; [|left; apply coll_cons; now apply coll_head].
        apply ST in ER. destruct ER as [[ER ES]|C]; [|left; now apply coll_head].
        right. repeat split; [exact ER|congruence|]. intros x Hx. destruct (HF x Hx) as [Hx1|Hx1]; [|auto]. now apply (hash_step _ v v' E1 E2).
      + assert (n = 0) as Hn0 by lia. rewrite Hn0 in HB'. cbn [skipn] in HB'.
        destruct (IH _ _ _ _ _ _ _ L L' HS HB' V V') as [C|(ER & EP & EO)]; [left; now apply coll_cons|].
        apply ST in ER. destruct ER as [[ER ES]|C]; [|left; now apply coll_head].
        right. repeat split; [exact ER|congruence|exact EO].
  Qed.

  Lemma mmcs_binding : forall commitment heights index proof proof' e,
    is_log e (list_max heights) -> length proof = e -> length proof' = e ->
    (o <> o' \/ proof <> proof') ->
    mmcs_verify coords hash compress digest_eqb commitment heights index o proof = Some true ->
    mmcs_verify coords hash compress digest_eqb commitment heights index o' proof' = Some true ->
    exists k c c', nth_error (mmcs_verify_calls coords hash compress heights index o proof) k = Some c /\
                   nth_error (mmcs_verify_calls coords hash compress heights index o' proof') k = Some c' /\ collide hash compress c c'.
  Proof.
    intros commitment heights index proof proof' e He L L' Hdiff V V'.
    unfold mmcs_verify, mmcs_verify_calls in *.
    destruct (Nat.eqb_spec (length heights) (length o)) as [LO|]; [|discriminate]. destruct (Nat.eqb_spec (length heights) (length o')) as [LO'|]; [|discriminate].
    cbn [negb] in *. set (dims := stable_sort snd (combine (seq 0 (length heights)) heights)) in *.
    assert (HS : desc dims) by apply (sort_sorted snd).
    assert (Hperm : Permutation dims (combine (seq 0 (length heights)) heights)) by apply sort_perm.
    destruct dims as [|d0 rest] eqn:Ed; [discriminate|]. rewrite <- Ed in *.
    assert (Hle : forall x, In x dims -> snd x <= snd d0).
    { intros x Hx. rewrite Ed in Hx, HS. destruct Hx as [<-|Hx]; [lia|]. apply StronglySorted_inv in HS. destruct HS as [_ FA]. rewrite Forall_forall in FA. now apply FA. }
    assert (Hmax : list_max heights = snd d0).
    { assert (Hsnd : map snd (combine (seq 0 (length heights)) heights) = heights) by (apply combine_snd; apply seq_length).
      apply list_max_head.
      - intros y Hy. rewrite <- Hsnd in Hy. apply in_map_iff in Hy. destruct Hy as (x & <- & Hx). apply Hle. now apply (Permutation_in _ (Permutation_sym Hperm)).
      - rewrite <- Hsnd. apply in_map. apply (Permutation_in _ Hperm). rewrite Ed. now left. }
    rewrite Hmax in He. apply is_log_unique in He. unfold bit_ceil in V, V' |- *. rewrite <- He in V, V' |- *.
    set (n := count_layers (Nat.pow 2 e) dims) in *.
    destruct (opened_values_of coords o (firstn n dims)) as [v|] eqn:E1; [|discriminate].
    destruct (opened_values_of coords o' (firstn n dims)) as [v'|] eqn:E2; [|discriminate].
    destruct (verify_loop coords hash compress o proof (hash v) index (Nat.pow 2 e) (skipn n dims)) as [r|] eqn:W; [|discriminate].
    destruct (verify_loop coords hash compress o' proof' (hash v') index (Nat.pow 2 e) (skipn n dims)) as [r'|] eqn:W'; [|discriminate].
    injection V as V. injection V' as V'. apply eqb_spec in V, V'. subst r r'.
    destruct (loop_binding e proof proof' (hash v) (hash v') index (skipn n dims) commitment L L') as [C|(EH & EP & EO)]; auto.
    { now apply desc_skipn'. } { apply below_after'; [exact HS|]. intros x Hx. rewrite He. apply log_mono. auto. }
    { now apply coll_cons. }
    apply hash_eq_step in EH. destruct EH as [EH|C]; [|now apply coll_head].
    exfalso. destruct Hdiff as [Hd|Hd]; [|now apply Hd]. apply Hd.
    assert (G : forall i, i < length heights -> nth_error o i = nth_error o' i).
    { intros i Hi. destruct (nth_error_Some_lt heights i Hi) as [h Hh].
      assert (I : In (i, h) dims).
      { apply (Permutation_in _ (Permutation_sym Hperm)). apply (nth_error_In _ i). clear - Hh Hi.
        assert (G : forall s, nth_error (combine (seq s (length heights)) heights) i = Some (s + i, h)).
        { revert i Hh Hi. induction heights as [|a r IH]; intros i Hh Hi s; [cbn in Hi; lia|]. destruct i as [|i]; cbn in *; [rewrite Nat.add_0_r; congruence|].
          rewrite IH by (auto; lia). do 2 f_equal. lia. }
        apply (G 0). }
      change i with (fst (i, h)). rewrite <- (firstn_skipn n dims) in I. apply in_app_or in I. destruct I as [I|I]; [|auto]. now apply (hash_step _ v v' E1 E2). }
    clear - G LO LO'. revert o' heights LO LO' G. generalize o. induction o0 as [|x l IH]; intros l' h LO LO' G.
    - destruct l'; [reflexivity|]. cbn in *. lia.
    - destruct l' as [|y l']; [cbn in *; lia|]. destruct h as [|a h]; [discriminate|]. cbn in LO, LO'. injection LO as LO. injection LO' as LO'. f_equal.
      + specialize (G 0 (Nat.lt_0_succ _)). cbn in G. congruence.
      + apply (IH l' h); auto. intros i Hi. apply (G (S i)). cbn. lia.
  Qed.
End Binding.

(** ** Counterexamples *)

(** Rows 0..7 and rows 0..2: the batch is acceptable, but index 7 addresses row 3 of the second matrix. *)
Definition column (n : nat) : list (list nat) := map (fun i => [i]) (seq 0 n).
Lemma padded_row_undefined : forall {P D : Type} (coords : nat -> list P) (hash : list P -> D) (compress : D -> D -> D) (zero : D),
  exists root layers, mmcs_commit coords hash compress zero [column 8; column 3] = Some (root, layers) /\ mmcs_open 7 [column 8; column 3] layers = None.
Proof. intros. eexists _, _. split; reflexivity. Qed.
Lemma batch_acceptable : acceptable [column 8; column 3].
Proof.
  split; [discriminate|split].
  - intros m [<-|[<-|[]]]; cbn; lia.
  - intros m m' e Hm Hm' He He'. apply is_log_unique in He, He'. destruct Hm as [<-|[<-|[]]], Hm' as [<-|[<-|[]]]; try reflexivity; subst e; discriminate He'.
Qed.

(** Without the debug-only check: heights 4 and 3 are accepted, the second matrix is never hashed into the tree. *)
Lemma same_class_not_committed : forall {F P D : Type} (coords : F -> list P) (hash : list P -> D) (compress : D -> D -> D) (zero : D) (a b c d : list F) (m m' : list (list F)),
  length m = 3 -> length m' = 3 ->
  mmcs_commit coords hash compress zero [[a; b; c; d]; m] = mmcs_commit coords hash compress zero [[a; b; c; d]; m'].
Proof. intros F P D coords hash compress zero a b c d [|x [|y [|z [|]]]] [|x' [|y' [|z' [|]]]] H H'; try discriminate H; try discriminate H'. reflexivity. Qed.

(** The verifier does not look at the widths, nor at the length of the proof. *)
Lemma widths_unchecked : forall {F P D : Type} (coords : F -> list P) (hash : list P -> D) (compress : D -> D -> D) (digest_eqb : D -> D -> bool) (commitment : D) (h index : nat) (a b c : F) (proof : list D),
  mmcs_verify coords hash compress digest_eqb commitment [h; h] index [[a; b]; [c]] proof =
  mmcs_verify coords hash compress digest_eqb commitment [h; h] index [[a]; [b; c]] proof.
Proof.
  intros. unfold mmcs_verify. cbn [length Nat.eqb negb seq combine stable_sort insert_sorted snd]. rewrite Nat.ltb_irrefl.
  unfold count_layers. cbn [count_prefix snd]. rewrite Nat.eqb_refl. cbn [firstn skipn].
  unfold opened_values_of. cbn [map_opt fst nth_error concat app].
  destruct proof as [|s proof]; [reflexivity|].
  assert (E : forall o proof root i nl, verify_loop coords hash compress (F := F) o proof root i nl [] = verify_loop coords hash compress [[a; b]; [c]] proof root i nl []).
  { intros o q. induction q as [|x q IH]; intros root i nl; [reflexivity|]. cbn. apply IH. }
  rewrite (E [[a]; [b; c]]). reflexivity.
Qed.
Lemma short_proof_accepted : forall {F P D : Type} (coords : F -> list P) (hash : list P -> D) (compress : D -> D -> D) (digest_eqb : D -> D -> bool) (a b : list F) (index : nat),
  (forall d, digest_eqb d d = true) ->
  mmcs_verify coords hash compress digest_eqb (hash (flat_map coords a)) [8; 1] index [a; b] [] = Some true.
Proof. intros F P D coords hash compress digest_eqb a b index H. unfold mmcs_verify. cbn. rewrite app_nil_r, H. reflexivity. Qed.
