(** The prover's arrays and the verifier's map agree at every index. *)
From Coq Require Import ZArith List Bool Lia Arith Sorting.Sorted Ring Field Field_theory.
From Verif Require Import Field BitsModel BitsExtra BitsProof ParallelizeModel ParallelizeProof SemigroupModel SemigroupExtra
  PolySpec PolyProof PolyProof3 FFTModel FFTSpec FFTProof FFTProof2 FFTProof4 FFTProof5 FFTExtra DomainSpec DomainProof CosetModel CosetProof CosetProof2 FriModel FriSpec FriProof FriProof2 PcsModel PcsProof PcsProof2.
Import ListNotations.
Open Scope nat_scope.

Lemma nth_set_nth {A} (x d : A) : forall l i j, i < length l -> nth j (set_nth i x l) d = if j =? i then x else nth j l d.
Proof.
  induction l as [|y l IH]; intros i j Hi; [cbn in Hi; lia|]. destruct i as [|i], j as [|j]; cbn; try reflexivity. cbn in Hi. apply IH. lia.
Qed.

Section Entries.
  Variable K : fld.
  Open Scope fld_scope.
  (** Updating the verifier's map, when it lists the entries [E l] for decreasing [l]. *)
  Lemma update_entry_spec (E E' : nat -> list (nat * (K * K))) log f e e' : forall ls,
    StronglySorted (fun a b => (b < a)%nat) ls -> In log ls ->
    (forall l, E l = [] \/ exists v, E l = [(l, v)]) ->
    (E log = [] /\ e = (0, 1) \/ E log = [(log, e)]) -> f e = Some e' ->
    (forall l, l <> log -> E' l = E l) -> E' log = [(log, e')] ->
    update_entry K log f (flat_map E ls) = Some (flat_map E' ls).
  Proof.
    intros ls HS Hin HE He Hf HO HN. induction ls as [|l ls IH]; [destruct Hin|]. apply StronglySorted_inv in HS. destruct HS as [HS HF].
    cbn [flat_map]. destruct (Nat.eq_dec l log) as [->|Hl].
    - assert (Hrest : flat_map E' ls = flat_map E ls). { clear - HF HO. induction HF as [|b ls Hb HF IH]; [reflexivity|]. cbn [flat_map]. rewrite IH, HO by lia. reflexivity. }
      rewrite Hrest, HN. destruct He as [[H0 ->]|H1].
      + rewrite H0. cbn [app]. assert (Hsm : Forall (fun b : nat * (K * K) => (fst b < log)%nat) (flat_map E ls)).
        { clear - HF HE. induction HF as [|b ls Hb HF IH]; [constructor|]. cbn [flat_map]. apply Forall_app. split; [|exact IH]. destruct (HE b) as [->|[v ->]]; constructor; [exact Hb|constructor]. }
        destruct (flat_map E ls) as [|[l0 v0] r]; cbn [update_entry]; [rewrite Hf; reflexivity|]. apply Forall_cons_iff in Hsm. destruct Hsm as [Hsm _]. cbn [fst] in Hsm.
        rewrite (proj2 (Nat.eqb_neq _ _)) by lia. rewrite (proj2 (Nat.ltb_lt _ _)) by exact Hsm. rewrite Hf. reflexivity.
      + rewrite H1. cbn [app update_entry]. rewrite Nat.eqb_refl, Hf. reflexivity.
    - destruct Hin as [->|Hin]; [congruence|]. specialize (IH HS Hin). rewrite HO by exact Hl.
      rewrite Forall_forall in HF. specialize (HF _ Hin). destruct (HE l) as [->|[v ->]]; [cbn [app]; exact IH|]. cbn [app update_entry].
      rewrite (proj2 (Nat.eqb_neq _ _)) by exact Hl. rewrite (proj2 (Nat.ltb_ge _ _)) by lia. rewrite IH. reflexivity.
  Qed.
End Entries.

Section State.
  Variable K : fld.
  Add Field Kpcs4 : (fld_theory K).
  Open Scope fld_scope.
  Variables (adicity : nat) (root shift : K) (threads : Z) (lb : nat) (alpha : K).
  Hypothesis Had : (adicity < 62)%nat.
  Hypothesis Hroot : primitive_root root (2 ^ adicity).
  Hypothesis Ht : (0 < threads < 2 ^ 62)%Z.
  Hypothesis Hshift : shift <> 0.
  Variables (D : list (K * list K)) (G : nat).
  Notation gen k := (generator adicity root k).
  Notation xpt := (xpt K adicity root shift).
  Notation at_ x cols := (map (fun f => eval f x) cols).
  Notation pm := (pm K adicity root shift lb).
  Notation lowp := (lowp K adicity root shift lb).
  Notation good := (good_denoms K adicity root shift D).

  Definition Inv (N : nat) (st : arrays K) : Prop :=
    length (fst st) = 32%nat /\ length (snd st) = 32%nat /\ forall l, (l < 32)%nat -> (nth l (snd st) 0 <= N)%nat /\
      ((nth l (fst st) [] = [] /\ nth l (snd st) 0%nat = 0%nat) \/ (lowp l (nth l (fst st) []) /\ (l <= G)%nat)).
  Definition entry_of (index : nat) (st : arrays K) (l : nat) : list (nat * (K * K)) :=
    match nth l (fst st) [] with [] => [] | _ => [(l, (nth (Nat.div index (2 ^ (G - l))) (nth l (fst st) []) 0, alpha ^ nth l (snd st) 0%nat))] end.
  Definition abs (index : nat) (st : arrays K) : list (nat * (K * K)) := flat_map (entry_of index st) (rev (seq 0 32)).

  Lemma desc_sorted n : StronglySorted (fun a b => (b < a)%nat) (rev (seq 0 n)).
  Proof using Type.
    clear. induction n as [|n IH]; [constructor|]. rewrite seq_S, rev_app_distr. cbn [rev app plus]. constructor; [exact IH|].
    apply Forall_forall. intros x Hx. apply in_rev, in_seq in Hx. lia.
  Qed.
  Lemma pow2_pos l : (0 < 2 ^ l)%nat.
  Proof using Type. clear. pose proof (Nat.pow_nonzero 2 l). lia. Qed.
  Lemma lowp_ne l v : lowp l v -> v <> [].
  Proof using Type. clear Had Hroot Ht Hshift. intros (H & _) ->. cbn in H. pose proof (pow2_pos l). lia. Qed.
  Lemma index_in index l : (index < 2 ^ G)%nat -> (l <= G)%nat -> (Nat.div index (2 ^ (G - l)) < 2 ^ l)%nat.
  Proof using Type.
    clear. intros Hi Hl. apply Nat.div_lt_upper_bound; [pose proof (pow2_pos (G - l)); lia|]. rewrite <- Nat.pow_add_r. replace (G - l + l)%nat with G by lia. exact Hi.
  Qed.

  Lemma block_spec k cols : (0 < k)%nat -> (k + lb <= adicity)%nat ->
    all_reads (map (fun r => match reverse_bits_len (Z.of_nat r) (Z.of_nat (k + lb - lb)) with Some j => nth_error (pm k cols) (Z.to_nat j) | None => None end)
                   (seq 0 (Nat.div (2 ^ (k + lb)) (2 ^ lb)))) = Some (map (fun i => at_ (shift * gen k ^ i) cols) (seq 0 (2 ^ k))).
  Proof using Had.
    intros Hk Hka. replace (Nat.div (2 ^ (k + lb)) (2 ^ lb)) with (2 ^ k)%nat. 2:{ rewrite Nat.pow_add_r, Nat.div_mul; [reflexivity|]. pose proof (pow2_pos lb). lia. }
    replace (k + lb - lb)%nat with k by lia. apply all_reads_map. intros r Hr. apply in_seq in Hr. rewrite reverse_bits_len_nat by lia. rewrite Nat2Z.id. unfold PcsProof2.pm.
    pose proof (brev_lt k r) as Hb. assert (Hle : (2 ^ k <= 2 ^ (k + lb))%nat) by (apply Nat.pow_le_mono_r; lia).
    rewrite (nth_error_nth' _ []) by (rewrite map_length, seq_length; lia). f_equal. rewrite (tab_at (fun i => at_ (xpt (k + lb) i) cols)) by lia.
    rewrite (xpt_prefix K adicity root shift k (k + lb)) by lia. unfold PcsProof.xpt. rewrite brev_invol by lia. reflexivity.
  Qed.

  Lemma open_matrix_spec k cols zs N st : (0 < k)%nat -> (k + lb <= adicity)%nat -> (k + lb < 32)%nat -> (k + lb <= G)%nat ->
    Forall (fun f => (length f <= 2 ^ k)%nat) cols -> cols <> [] -> Forall (good (k + lb)) zs -> Inv N st -> (Z.of_nat (N + length zs * length cols) < 2 ^ 64)%Z ->
    exists st', open_matrix K adicity root shift threads lb alpha D st (pm k cols) zs = Some (st', map (fun z => at_ z cols) zs) /\
      Inv (N + length zs * length cols) st' /\ nth (k + lb) (fst st') [] <> [] /\ (forall l, nth l (fst st) [] <> [] -> nth l (fst st') [] <> []) /\
      forall index d, (index < 2 ^ G)%nat -> d_log d = k ->
        check_matrix K adicity root shift lb alpha G index (abs index st) d zs (map (fun z => at_ z cols) zs) (at_ (xpt (k + lb) (Nat.div index (2 ^ (G - (k + lb))))) cols) = Some (abs index st').
  Proof.
    intros Hk Hka H32 HkG Hcols Hne Hzs (L1 & L2 & HI) Hn. set (l := (k + lb)%nat) in *.
    assert (Hpl : length (pm k cols) = (2 ^ l)%nat) by (unfold PcsProof2.pm; rewrite map_length, seq_length; reflexivity).
    assert (Hhd : length (hd [] (pm k cols)) = length cols).
    { unfold PcsProof2.pm. fold l. pose proof (pow2_pos l). destruct (2 ^ l)%nat as [|n]; [lia|]. cbn [seq map hd]. apply map_length. }
    destruct (HI l H32) as (HN & HC).
    set (vec0 := nth l (fst st) []) in *. set (num := nth l (snd st) 0%nat) in *.
    set (vec := match vec0 with [] => repeat 0 (2 ^ l)%nat | _ => vec0 end).
    assert (Hv : lowp l vec). { unfold vec. destruct HC as [[-> _]|[HC _]]; [apply lowp_zero; unfold l; lia|]. destruct vec0 eqn:E; [|exact HC]. exfalso. apply (lowp_ne _ _ HC). reflexivity. }
    destruct (open_points_spec K adicity root shift threads lb alpha Had Hroot Ht Hshift D k cols Hk Hka Hcols Hne zs vec num Hv Hzs ltac:(lia)) as (vec' & E & Hv' & EA).
    exists (set_nth l vec' (fst st), set_nth l (num + length zs * length cols)%nat (snd st)). split; [|split; [|split; [|split]]].
    - unfold open_matrix. rewrite Hpl, checked_log2_pow2 by lia. rewrite Nat2Z.id.
      rewrite (nth_error_nth' (fst st) []), (nth_error_nth' (snd st) 0%nat) by lia. fold vec0 num.
      fold vec. replace (length vec =? 2 ^ l)%nat with true by (symmetry; apply Nat.eqb_eq; apply Hv).
      unfold l at 1 2. rewrite block_spec by assumption. rewrite Hhd, E. reflexivity.
    - split; [cbn [fst]; rewrite set_nth_length; exact L1|]. split; [cbn [snd]; rewrite set_nth_length; exact L2|]. intros j Hj. cbn [fst snd]. rewrite !nth_set_nth by lia.
      destruct (Nat.eqb_spec j l) as [->|Hjl]; [|destruct (HI j Hj) as [A B]; split; [lia|exact B]]. split; [lia|]. right. split; [exact Hv'|exact HkG].
    - cbn [fst]. rewrite nth_set_nth by lia. rewrite Nat.eqb_refl. apply (lowp_ne _ _ Hv').
    - intros j Hj. cbn [fst]. rewrite nth_set_nth by lia. destruct (Nat.eqb_spec j l); [apply (lowp_ne _ _ Hv')|exact Hj].
    - intros index d Hi Hd. unfold check_matrix. rewrite Hd. fold l. unfold reduced_index. rewrite (proj2 (Nat.ltb_ge _ _)) by exact HkG.
      pose proof (index_in index l Hi HkG) as Hil. set (i := Nat.div index (2 ^ (G - l))) in *.
      rewrite reverse_bits_len_nat by (first [exact Hil|unfold l; lia]). rewrite root_spec' by (unfold l; lia).
      rewrite do_pow_fpow. 2:{ pose proof (brev_lt l i). pose proof (pow2_small l ltac:(lia)). lia. } rewrite Nat2Z.id. change (shift * gen l ^ brev l i) with (xpt l i).
      unfold abs. apply (update_entry_spec K (entry_of index st) _ l _ (nth i vec 0, alpha ^ num) (nth i vec' 0, alpha ^ (num + length zs * length cols))).
      + apply desc_sorted.
      + apply -> in_rev. apply in_seq. lia.
      + intros j. unfold entry_of. destruct (nth j (fst st) []); [left; reflexivity|]. right. eexists. reflexivity.
      + unfold entry_of. fold vec0 num i. unfold vec. destruct HC as [[E0 En]|[HC _]].
        * left. rewrite E0. split; [reflexivity|]. rewrite nth_repeat, En. reflexivity.
        * right. pose proof (lowp_ne _ _ HC). destruct vec0; [congruence|]. reflexivity.
      + apply EA. exact Hil.
      + intros j Hj. unfold entry_of. cbn [fst snd]. rewrite !nth_set_nth by lia. rewrite (proj2 (Nat.eqb_neq _ _)) by exact Hj. reflexivity.
      + unfold entry_of. cbn [fst snd]. rewrite !nth_set_nth by lia. rewrite Nat.eqb_refl. fold i. pose proof (lowp_ne _ _ Hv'). destruct vec'; [congruence|]. reflexivity.
  Qed.
End State.
