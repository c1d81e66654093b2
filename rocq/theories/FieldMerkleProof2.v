(** Completeness: the verifier recomputes the digests of the builder along the opened path. *)
From Coq Require Import List Arith Bool Lia Permutation Sorting.Sorted.
From Verif Require Import FieldMerkleSpec FieldMerkleModel FieldMerkleProof.
Import ListNotations.
Open Scope nat_scope.

Lemma flip_lt : forall t i, i < Nat.pow 2 (S t) -> flip_low_bit i < Nat.pow 2 (S t).
Proof.
  intros t i H. rewrite Nat.pow_succ_r' in *. unfold flip_low_bit. destruct (Nat.even i) eqn:E; [|lia].
  apply Nat.even_spec in E. destruct E as [q ->]. lia.
Qed.
Lemma pair_of : forall {D} (prev : list D) i x y, nth_error prev i = Some x -> nth_error prev (flip_low_bit i) = Some y ->
  forall compress, compress_pair compress prev (i / 2) = Some (if Nat.even i then compress x y else compress y x).
Proof.
  intros D prev i x y Hx Hy compress. unfold compress_pair, flip_low_bit in *. destruct (Nat.even i) eqn:E.
  - apply Nat.even_spec in E. destruct E as [q ->]. replace (2 * q / 2) with q by (symmetry; rewrite Nat.mul_comm; apply Nat.div_mul; lia). rewrite Hx, Hy. reflexivity.
  - assert (O : Nat.odd i = true) by (rewrite <- Nat.negb_even, E; reflexivity). apply Nat.odd_spec in O. destruct O as [q ->].
    replace ((2 * q + 1) / 2) with q by (symmetry; rewrite Nat.mul_comm, Nat.div_add_l by lia; cbn; lia).
    replace (2 * q + 1 - 1) with (2 * q) in Hy by lia. rewrite Hx, Hy. reflexivity.
Qed.
Lemma seq_nth_error : forall n s i, i < n -> nth_error (seq s n) i = Some (s + i).
Proof. induction n as [|n IH]; intros s i H; [lia|]. destruct i as [|i]; cbn; [f_equal; lia|]. rewrite IH by lia. f_equal. lia. Qed.
Lemma nth_error_Some_lt : forall {A} (l : list A) i, i < length l -> exists x, nth_error l i = Some x.
Proof. intros A l i H. destruct (nth_error l i) eqn:E; [eauto|]. apply nth_error_None in E. lia. Qed.

Section Complete.
  Context {F P D : Type}.
  Variables (coords : F -> list P) (hash : list P -> D) (compress : D -> D -> D) (zero : D).
  Notation matrix := (list (list F)).
  Notation item := (nat * list (list F))%type.
  Definition dims_of (z : item) : nat * nat := (fst z, length (snd z)).

  Lemma compress_pair_total : forall prev t i, length prev = Nat.pow 2 (S t) -> i < Nat.pow 2 t -> exists d, compress_pair compress prev i = Some d.
  Proof.
    intros prev t i L H. rewrite Nat.pow_succ_r' in L. unfold compress_pair.
    destruct (nth_error_Some_lt prev (2 * i)) as [a ->]; [lia|]. destruct (nth_error_Some_lt prev (2 * i + 1)) as [b ->]; [lia|]. eauto.
  Qed.

  Lemma row_hash_total : forall (ms : list matrix) i, (forall m, In m ms -> i < length m) -> exists d, row_hash coords hash ms i = Some d.
  Proof.
    intros ms i H. unfold row_hash, row_values.
    destruct (map_opt_total (fun m : matrix => nth_error m i) ms) as (l & -> & _); [|eauto].
    intros m Hm. apply nth_error_Some_lt. auto.
  Qed.

  (** One layer: its size, and its node on the path. *)
  Lemma inject_spec : forall prev t (ms : list matrix) L i d, length prev = Nat.pow 2 (S t) ->
    (forall m, In m ms -> length m = L /\ log2_ceiling (length m) = t) -> i < Nat.pow 2 t ->
    (ms <> [] -> i < L) -> compress_pair compress prev i = Some d ->
    exists next, compress_and_inject coords hash compress zero prev ms = Some next /\ length next = Nat.pow 2 t /\
      nth_error next i = match ms with [] => Some d | _ => match row_hash coords hash ms i with Some h => Some (compress d h) | None => None end end.
  Proof.
    intros prev t ms L i d LP HM Hi HL Hd. unfold compress_and_inject. destruct ms as [|m ms'].
    - unfold compress_layer. rewrite LP, pow2_half.
      destruct (map_opt_total (compress_pair compress prev) (seq 0 (Nat.pow 2 t))) as (l & E & LL & N).
      { intros a Ha. apply in_seq in Ha. apply (compress_pair_total prev t); [assumption|lia]. }
      exists l. rewrite seq_length in LL. repeat split; auto. rewrite (N i i), Hd; [reflexivity|]. rewrite seq_nth_error by assumption. reflexivity.
    - set (ms := m :: ms') in *. assert (Hne : ms <> []) by (subst ms; discriminate). specialize (HL Hne).
      destruct (HM m (or_introl eq_refl)) as [Lm Tm].
      assert (HLt : L <= Nat.pow 2 t) by (rewrite <- Lm, <- Tm; apply le_bit_ceil).
      unfold bit_ceil. rewrite Tm, Lm.
      destruct (map_opt_total (inject_node coords hash compress prev ms) (seq 0 L)) as (l & E & LL & N).
      { intros a Ha. apply in_seq in Ha. unfold inject_node.
        destruct (compress_pair_total prev t a) as [x ->]; [assumption|lia|].
        destruct (row_hash_total ms a) as [y ->]; [|eauto]. intros m0 H0. destruct (HM m0 H0) as [-> _]. lia. }
      destruct (map_opt_total (pad_node compress zero prev) (seq L (Nat.pow 2 t - L))) as (l2 & E2 & LL2 & N2).
      { intros a Ha. apply in_seq in Ha. unfold pad_node. destruct (compress_pair_total prev t a) as [x ->]; [assumption|lia|eauto]. }
      rewrite E, E2. exists (l ++ l2). rewrite seq_length in LL, LL2. repeat split.
      + rewrite app_length, LL, LL2. lia.
      + rewrite nth_error_app1 by lia. rewrite (N i i) by (rewrite seq_nth_error by assumption; reflexivity). unfold inject_node. rewrite Hd. reflexivity.
  Qed.

  Lemma opened_row_values : forall (opened : list (list F)) (zs : list item) j,
    (forall z, In z zs -> nth_error opened (fst z) = nth_error (snd z) j) ->
    opened_values_of coords opened (map dims_of zs) = row_values coords (map snd zs) j.
  Proof.
    intros opened zs j H. unfold opened_values_of, row_values. rewrite !map_opt_map. rewrite (map_opt_ext _ (fun z : item => nth_error (snd z) j)); [reflexivity|].
    intros z Hz. cbn. auto.
  Qed.

  Definition sibling_at (layers : list (list D)) (index i : nat) : option D :=
    match nth_error layers i with Some l => nth_error l (flip_low_bit (index / Nat.pow 2 i)) | None => None end.

  Notation desc := (StronglySorted (fun x y : item => length (snd y) <= length (snd x))).
  Definition classes (zs : list item) : Prop := forall z z', In z zs -> In z' zs -> log2_ceiling (length (snd z)) = log2_ceiling (length (snd z')) -> length (snd z) = length (snd z').

  Lemma desc_skipn : forall n zs, desc zs -> desc (skipn n zs).
  Proof. induction n as [|n IH]; intros zs H; [exact H|]. destruct zs as [|z r]; [exact H|]. cbn. inversion H; auto. Qed.

  (** Taking the class of exponent t off a sorted list whose exponents are at most t leaves exponents below t. *)
  Lemma below_after : forall t zs f, desc zs -> (forall z, In z zs -> log2_ceiling (length (snd z)) <= t) ->
    (forall z : item, f z = (log2_ceiling (length (snd z)) =? t)) ->
    forall z, In z (skipn (count_prefix f zs) zs) -> log2_ceiling (length (snd z)) < t.
  Proof.
    intros t zs f S B Hf z Hz. pose proof (count_prefix_skipn f zs) as C. pose proof (desc_skipn (count_prefix f zs) zs S) as S'.
    assert (I : forall x, In x (skipn (count_prefix f zs) zs) -> In x zs) by (intros x Hx; rewrite <- (firstn_skipn (count_prefix f zs) zs); apply in_or_app; now right).
    destruct (skipn (count_prefix f zs) zs) as [|a r]; [destruct Hz|].
    rewrite Hf in C. apply Nat.eqb_neq in C. pose proof (B a (I a (or_introl eq_refl))) as Ba.
    destruct Hz as [<-|Hz]; [lia|]. inversion S' as [|? ? _ FA]; subst. rewrite Forall_forall in FA. specialize (FA z Hz). cbn in FA.
    pose proof (log_mono _ _ FA). lia.
  Qed.

  Lemma loop_spec : forall t fuel prev idx root opened (rem : list item), t <= fuel ->
    length prev = Nat.pow 2 t -> nth_error prev idx = Some root -> desc rem -> classes rem ->
    (forall z, In z rem -> log2_ceiling (length (snd z)) < t /\
       nth_error opened (fst z) = nth_error (snd z) (idx / Nat.pow 2 (t - log2_ceiling (length (snd z)))) /\
       idx / Nat.pow 2 (t - log2_ceiling (length (snd z))) < length (snd z)) ->
    exists ls r sibs, layers_loop coords hash compress zero fuel prev (map snd rem) = Some ls /\ nth_error ls 0 = Some prev /\ ls <> [] /\
      get_root ls = Some r /\ map_opt (sibling_at ls idx) (seq 0 t) = Some sibs /\
      verify_loop coords hash compress opened sibs root idx (Nat.pow 2 t) (map dims_of rem) = Some r.
  Proof.
    induction t as [|t IH]; intros fuel prev idx root opened rem Hf LP Hroot S C HR.
    - assert (Hidx : idx = 0) by (assert (idx < length prev) by (apply nth_error_Some; congruence); cbn in LP; lia). subst idx.
      exists [prev], root, []. destruct fuel; cbn [layers_loop]; rewrite LP; cbn; repeat split; auto; discriminate.
    - destruct fuel as [|fuel]; [lia|]. cbn [layers_loop].
      assert (Hidx : idx < Nat.pow 2 (Datatypes.S t)) by (rewrite <- LP; apply nth_error_Some; congruence).
      assert (Hidx2 : idx / 2 < Nat.pow 2 t) by (apply Nat.div_lt_upper_bound; [lia|rewrite <- Nat.pow_succ_r'; exact Hidx]).
      destruct (Nat.eqb_spec (length prev) 1) as [E1|_]; [exfalso; rewrite LP, Nat.pow_succ_r' in E1; pose proof (pow2_pos' t); lia|].
      rewrite LP, pow2_half.
      set (f := fun z : item => bit_ceil (length (snd z)) =? Nat.pow 2 t).
      rewrite count_prefix_map. fold f. set (n := count_prefix f rem). rewrite firstn_map, skipn_map.
      assert (Hfs : forall z, f z = (log2_ceiling (length (snd z)) =? t)) by (intros z; apply bit_ceil_eqb).
      assert (In1 : forall z, In z (firstn n rem) -> In z rem) by (intros x Hx; rewrite <- (firstn_skipn n rem); apply in_or_app; now left).
      assert (In2 : forall z, In z (skipn n rem) -> In z rem) by (intros x Hx; rewrite <- (firstn_skipn n rem); apply in_or_app; now right).
      assert (P1 : forall z, In z (firstn n rem) -> log2_ceiling (length (snd z)) = t).
      { intros z Hz. apply count_prefix_firstn in Hz. rewrite Hfs in Hz. now apply Nat.eqb_eq. }
      destruct (nth_error_Some_lt prev (flip_low_bit idx)) as [sib Hsib]; [rewrite LP; now apply flip_lt|].
      pose proof (pair_of prev idx root sib Hroot Hsib compress) as Hpair.
      set (root1 := if Nat.even idx then compress root sib else compress sib root) in *.
      set (L := match firstn n rem with [] => 0 | z :: _ => length (snd z) end).
      assert (PL : forall z, In z (firstn n rem) -> length (snd z) = L).
      { intros z Hz. subst L. destruct (firstn n rem) as [|z0 r0] eqn:E0; [destruct Hz|]. apply C; [apply In1; assumption|apply In1; now left|].
        rewrite (P1 z Hz), (P1 z0 (or_introl eq_refl)). reflexivity. }
      assert (Haddr : forall z, In z (firstn n rem) -> nth_error opened (fst z) = nth_error (snd z) (idx / 2) /\ idx / 2 < length (snd z)).
      { intros z Hz. destruct (HR z (In1 z Hz)) as (_ & A & B). rewrite (P1 z Hz) in A, B. replace (Datatypes.S t - t) with 1 in A, B by lia. split; assumption. }
      destruct (inject_spec prev t (map snd (firstn n rem)) L (idx / 2) root1 LP) as (next & En & Ln & Nn); auto.
      { intros m Hm. apply in_map_iff in Hm. destruct Hm as (z & <- & Hz). auto. }
      { intros Hne. destruct (firstn n rem) as [|z0 r0] eqn:E0; [now elim Hne|]. rewrite <- (PL z0 (or_introl eq_refl)). apply Haddr. now left. }
      rewrite En.
      assert (Hnode : exists root2, nth_error next (idx / 2) = Some root2 /\
         (forall sibs, verify_loop coords hash compress opened (sib :: sibs) root idx (Nat.pow 2 (Datatypes.S t)) (map dims_of rem) =
            verify_loop coords hash compress opened sibs root2 (idx / 2) (Nat.pow 2 t) (map dims_of (skipn n rem)))).
      { rewrite Nn. cbn [verify_loop]. rewrite pow2_half. fold root1. unfold count_layers. rewrite count_prefix_map.
        rewrite (count_prefix_ext _ f) by (intros z; unfold f, dims_of; cbn [snd]; apply Nat.eqb_sym). fold n.
        rewrite firstn_map, skipn_map, (opened_row_values opened (firstn n rem) (idx / 2)) by (intros z Hz; now apply Haddr).
        unfold row_hash.
        destruct (map snd (firstn n rem)) as [|m0 r0] eqn:E0.
        - apply map_eq_nil in E0. assert (Hn : n = 0 \/ rem = []) by (destruct n, rem; auto; discriminate).
          exists root1. split; [reflexivity|]. intros sibs.
          assert (n = 0) as -> by (destruct Hn as [Hn | Hn]; [exact Hn|subst n; rewrite Hn; reflexivity]). reflexivity.
        - assert (0 < n) by (destruct n; [discriminate E0|lia]). assert ((0 <? n) = true) as -> by now apply Nat.ltb_lt.
          rewrite <- E0. destruct (map_opt_total (fun m : matrix => nth_error m (idx / 2)) (map snd (firstn n rem))) as (l & E & _).
          { intros m Hm. apply in_map_iff in Hm. destruct Hm as (z & <- & Hz). apply nth_error_Some_lt. now apply Haddr. }
          unfold row_values. rewrite E. eexists. split; [reflexivity|]. intros sibs. reflexivity. }
      destruct Hnode as (root2 & Hr2 & Hv).
      destruct (IH fuel next (idx / 2) root2 opened (skipn n rem)) as (ls & r & sibs & El & E0 & Hne & Er & Es & Ev); auto.
      { lia. } { now apply desc_skipn. } { intros z z' Hz Hz'. apply C; auto. }
      { intros z Hz. assert (B : log2_ceiling (length (snd z)) < t).
        { apply (below_after t rem f S); auto. intros x Hx. destruct (HR x Hx) as (Hx' & _). lia. }
        split; [exact B|]. destruct (HR z (In2 z Hz)) as (_ & A1 & A2).
        assert (Eq : idx / Nat.pow 2 (Datatypes.S t - log2_ceiling (length (snd z))) = idx / 2 / Nat.pow 2 (t - log2_ceiling (length (snd z)))).
        { rewrite Nat.div_div by (try apply Nat.pow_nonzero; lia). replace (Datatypes.S t - log2_ceiling (length (snd z))) with (Datatypes.S (t - log2_ceiling (length (snd z)))) by lia. now rewrite Nat.pow_succ_r'. }
        rewrite Eq in A1, A2. auto. }
      rewrite El. exists (prev :: ls), r, (sib :: sibs). repeat split; auto; try discriminate.
      + unfold get_root in *. destruct ls; [now elim Hne|]. exact Er.
      + cbn [seq map_opt]. unfold sibling_at at 1. cbn [nth_error]. rewrite Nat.pow_0_r, Nat.div_1_r, Hsib.
        rewrite <- seq_shift, map_opt_map. erewrite map_opt_ext; [rewrite Es; reflexivity|].
        intros i _. unfold sibling_at. cbn [nth_error]. rewrite Nat.pow_succ_r', Nat.div_div by (try apply Nat.pow_nonzero; lia). reflexivity.
      + rewrite Hv. exact Ev.
  Qed.
End Complete.
