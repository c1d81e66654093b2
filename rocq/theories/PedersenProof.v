From Coq Require Import ZArith List Bool Arith Lia Ring Field Field_theory.
From Verif Require Import Field GrothModel GrothProof KzgModel PedersenModel PedersenSpec.
Import ListNotations.

Section Proofs.
  Context {K : fld} {G : group K}.
  Add Field KF : (fld_theory K).

  Lemma msm_combination : forall (gs : list G) vs, msm_sum gs vs = combination vs gs.
  Proof.
    induction gs as [|g gs IH]; intros [|v vs]; cbn; try reflexivity. rewrite IH. reflexivity.
  Qed.
  Lemma commit_spec (p : pedersen G) v r :
    pd_commit p v r = if Nat.eqb (length v) (length (pd_generators p))
                      then Some (r ** pd_h p + combination v (pd_generators p))%grp else None.
  Proof.
    unfold pd_commit, msm_run. rewrite Nat.eqb_sym. destruct (Nat.eqb (length v) _); cbn [option_map]; [|reflexivity].
    unfold compute_commitment. rewrite msm_combination. reflexivity.
  Qed.

  Lemma gswap (a b c d : G) : ((a + b) + (c + d) = (a + c) + (b + d))%grp.
  Proof.
    rewrite !gadd_assoc. f_equal. rewrite <- !gadd_assoc. f_equal. apply gadd_comm.
  Qed.
  Lemma combination_sum : forall (gs : list G) v w, length v = length w ->
    (combination v gs + combination w gs = combination (vector_sum v w) gs)%grp.
  Proof.
    induction gs as [|g gs IH]; intros v w L.
    - unfold combination. rewrite !combine_nil. cbn. apply gadd_zero.
    - destruct v as [|a v], w as [|b w]; try discriminate; [cbn; apply gadd_zero|].
      change (combination (vector_sum (a :: v) (b :: w)) (g :: gs))
        with (((a + b)%fld ** g) + combination (vector_sum v w) gs)%grp.
      change (combination (a :: v) (g :: gs)) with ((a ** g) + combination v gs)%grp.
      change (combination (b :: w) (g :: gs)) with ((b ** g) + combination w gs)%grp.
      rewrite <- IH by (cbn in L; lia). rewrite gmul_add_l. apply gswap.
  Qed.
  Lemma vector_sum_length (v w : list K) : length v = length w -> length (vector_sum v w) = length v.
  Proof. intro L. unfold vector_sum. rewrite map_length, combine_length. lia. Qed.

  Lemma homomorphic (p : pedersen G) v w r s c d : pd_commit p v r = Some c -> pd_commit p w s = Some d ->
    pd_commit p (vector_sum v w) (r + s)%fld = Some (c + d)%grp.
  Proof.
    rewrite !commit_spec.
    destruct (Nat.eqb_spec (length v) (length (pd_generators p))) as [L|L]; [|discriminate].
    destruct (Nat.eqb_spec (length w) (length (pd_generators p))) as [L2|L2]; [|discriminate].
    intros [= <-] [= <-]. rewrite vector_sum_length by congruence. rewrite L, Nat.eqb_refl.
    rewrite <- combination_sum by congruence. rewrite gmul_add_l. f_equal. symmetry. apply gswap.
  Qed.

  Lemma difference_back : forall v w : list K, length v = length w -> vector_sum (vector_difference v w) w = v.
  Proof.
    induction v as [|a v IH]; intros [|b w] L; try discriminate; [reflexivity|].
    unfold vector_sum, vector_difference in *. cbn [combine map]. rewrite IH by (cbn in L; lia). f_equal. ring.
  Qed.
  Lemma difference_length (v w : list K) : length v = length w -> length (vector_difference v w) = length v.
  Proof. intro L. unfold vector_difference. rewrite map_length, combine_length. lia. Qed.

  Lemma two_openings (p : pedersen G) v w r s c : pd_commit p v r = Some c -> pd_commit p w s = Some c ->
    ((r - s)%fld ** pd_h p + combination (vector_difference v w) (pd_generators p) = gzero)%grp.
  Proof.
    intros A B. pose proof A as LA. pose proof B as LB. rewrite commit_spec in LA, LB.
    destruct (Nat.eqb_spec (length v) (length (pd_generators p))) as [L|L]; [|discriminate].
    destruct (Nat.eqb_spec (length w) (length (pd_generators p))) as [L2|L2]; [|discriminate].
    assert (D : pd_commit p (vector_difference v w) (r - s)%fld =
      Some ((r - s)%fld ** pd_h p + combination (vector_difference v w) (pd_generators p))%grp).
    { rewrite commit_spec, difference_length, L, Nat.eqb_refl by congruence. reflexivity. }
    pose proof (homomorphic p _ _ _ _ _ _ D B) as H.
    rewrite difference_back in H by congruence.
    replace (r - s + s)%fld with r in H by ring. rewrite A in H. injection H as H.
    apply (gcancel c). rewrite gadd_zero_r, gadd_comm. symmetry. exact H.
  Qed.

  Lemma combination_of_h (h : G) : forall as_ vs, exists x : K, combination vs (map (fun a => (a ** h)%grp) as_) = (x ** h)%grp.
  Proof.
    induction as_ as [|a as_ IH]; intros [|v vs]; try (exists 0%fld; cbn; rewrite gmul_0; reflexivity).
    destruct (IH vs) as [x X]. exists (v * a + x)%fld.
    change (combination (v :: vs) (map (fun a => (a ** h)%grp) (a :: as_)))
      with ((v ** (a ** h)) + combination vs (map (fun a => (a ** h)%grp) as_))%grp.
    rewrite X, gmul_add_l, gmul_mul. reflexivity.
  Qed.
  Lemma hiding (h : G) (as_ : list K) v w r : length v = length as_ -> length w = length as_ ->
    exists s, pd_commit (mk_pedersen h (map (fun a => (a ** h)%grp) as_)) w s =
              pd_commit (mk_pedersen h (map (fun a => (a ** h)%grp) as_)) v r.
  Proof.
    intros L1 L2. destruct (combination_of_h h as_ v) as [x X]. destruct (combination_of_h h as_ w) as [y Y].
    exists (r + x - y)%fld. rewrite !commit_spec. cbn [pd_h pd_generators]. rewrite map_length, L1, L2, Nat.eqb_refl, X, Y.
    f_equal. rewrite <- !gmul_add_l. f_equal. ring.
  Qed.

  (** ** Batches *)
  Lemma store_length : forall (l : list G) i g, length (store l i g) = length l.
  Proof. induction l as [|x l IH]; intros [|i] g; cbn; try reflexivity. rewrite IH. reflexivity. Qed.
  Lemma store_nth : forall (l : list G) i j g, i < length l ->
    nth_error (store l i g) j = if Nat.eqb i j then Some g else nth_error l j.
  Proof.
    induction l as [|x l IH]; intros i j g L; cbn [length] in L; [lia|].
    destruct i as [|i], j as [|j]; cbn; try reflexivity. apply IH. lia.
  Qed.

  (** What the theorems need of a step. *)
  Definition steps_as {Q} (value : Q -> option G) (step : Q -> nat -> batch G -> option (bool * batch G)) : Prop :=
    (forall q i s, b_mode s = true -> length (b_slots s) = b_count s -> step q i s = run_into (value q) i s) /\
    (forall q i s, b_mode s = false -> step q i s = None).
  Lemma pd_steps d (p : pedersen G) : steps_as (fun q => msm_run (pd_generators p) (fst q)) (pd_step d p).
  Proof.
    split; intros q i s M; unfold pd_step, pd_commit_at; rewrite M; [|reflexivity].
    intro L. rewrite L, Nat.eqb_refl. destruct s; reflexivity || (cbn in *; subst; reflexivity).
  Qed.
  Lemma kzg_steps (k : kzg G) : steps_as (kzg_value k) (kzg_step k).
  Proof.
    split; intros [[|] v] i s M; unfold kzg_step, kzg_value, kzg_commit_at, kzg_commit_lagrange_at; cbn [fst snd];
      rewrite M; reflexivity.
  Qed.

  Section Generic.
    Context {Q : Type} (value : Q -> option G) (step : Q -> nat -> batch G -> option (bool * batch G)).
    Hypothesis ST : steps_as value step.

    Definition succeeds (q : Q * nat) : bool := match value (fst q) with Some _ => true | None => false end.

    Lemma calls_ok n : forall qs s, b_mode s = true -> b_count s = n -> length (b_slots s) = n ->
      Forall (fun q => snd q < n) qs -> exists s', calls step qs s = Some (map succeeds qs, s') /\
      length (b_slots s') = n /\ forall i d, nth_error (b_slots s) i = Some d -> nth_error (b_slots s') i = Some (last_at value d i qs).
    Proof.
      induction qs as [|[q j] qs IH]; intros s M C L F.
      - exists s. split; [reflexivity|]. split; [exact L|]. intros i d H. exact H.
      - inversion F as [|? ? J F']; subst. cbn [snd] in J. cbn [calls].
        destruct ST as [S1 _]. rewrite S1 by assumption. unfold run_into.
        replace (Nat.ltb j (length (b_slots s))) with true by (symmetry; apply Nat.ltb_lt; lia).
        cbn [map]. unfold succeeds at 1. cbn [fst].
        destruct (value q) as [g|] eqn:V.
        + destruct (IH (mk_batch (b_mode s) (b_count s) (store (b_slots s) j g)) M eq_refl) as [s' [E [L' N]]];
            [cbn [b_slots]; rewrite store_length; exact L|exact F'|].
          rewrite E. exists s'. split; [reflexivity|]. split; [exact L'|]. intros i d H.
          unfold last_at. cbn [fold_left]. rewrite V. cbn [b_slots] in N. apply N.
          rewrite store_nth by lia. destruct (Nat.eqb j i); [reflexivity|exact H].
        + destruct (IH s M eq_refl L F') as [s' [E [L' N]]].
          rewrite E. exists s'. split; [reflexivity|]. split; [exact L'|]. intros i d H.
          unfold last_at. cbn [fold_left]. rewrite V. replace (if Nat.eqb j i then d else d) with d by (destruct (Nat.eqb j i); reflexivity).
          apply N, H.
    Qed.

    Lemma session_ok d n qs : 0 < n -> Forall (fun q => snd q < n) qs -> exists out,
      session step d n qs batch_new = Some (map succeeds qs, out, batch_new) /\ length out = n /\
      forall i, i < n -> nth_error out i = Some (last_at value d i qs).
    Proof.
      intros N F. unfold session, set_batch_mode. replace (Nat.eqb n 0) with false by (symmetry; apply Nat.eqb_neq; lia).
      cbn [b_count batch_new Nat.eqb b_slots].
      assert (R : resize d n [] = repeat d n) by (unfold resize; rewrite firstn_nil, Nat.sub_0_r; reflexivity).
      destruct (calls_ok n qs (mk_batch true n (resize d n [])) eq_refl eq_refl) as [s' [E [L NN]]];
        [cbn [b_slots]; rewrite R; apply repeat_length|exact F|].
      rewrite E. unfold get_batch. exists (b_slots s'). split; [reflexivity|]. split; [exact L|].
      intros i I. apply NN. cbn [b_slots]. rewrite R. apply nth_error_repeat. exact I.
    Qed.

    Lemma last_at_other d i : forall qs : list (Q * nat), ~ In i (map snd qs) -> last_at value d i qs = d.
    Proof.
      intro qs. revert d. induction qs as [|[q j] qs IH]; intros d N; [reflexivity|].
      unfold last_at. cbn [fold_left]. cbn [map snd] in N.
      replace (Nat.eqb j i) with false by (symmetry; apply Nat.eqb_neq; intro; apply N; left; assumption).
      apply IH. intro; apply N; right; assumption.
    Qed.
    Lemma last_at_once d i q g : forall qs : list (Q * nat), NoDup (map snd qs) -> In (q, i) qs -> value q = Some g ->
      last_at value d i qs = g.
    Proof.
      intro qs. revert d. induction qs as [|[q' j] qs IH]; intros d ND I V; [contradiction|].
      cbn [map snd] in ND. inversion ND as [|? ? NI ND']; subst. unfold last_at. cbn [fold_left].
      destruct I as [I|I].
      - injection I as -> ->. rewrite Nat.eqb_refl, V. apply last_at_other, NI.
      - replace (Nat.eqb j i) with false; [apply IH; assumption|].
        symmetry. apply Nat.eqb_neq. intros ->. apply NI. apply in_map_iff. exists (q, i). split; [reflexivity|exact I].
    Qed.

    Lemma outside_batch q i s : b_mode s = false -> step q i s = None.
    Proof. destruct ST as [_ S2]. apply S2. Qed.
    Lemma bad_index d n qs q i r : 0 < n -> Forall (fun q => snd q < n) qs -> n <= i ->
      session step d n (qs ++ (q, i) :: r) batch_new = None.
    Proof.
      intros N F I. unfold session, set_batch_mode. replace (Nat.eqb n 0) with false by (symmetry; apply Nat.eqb_neq; lia).
      cbn [b_count batch_new Nat.eqb b_slots].
      assert (R : resize d n [] = repeat d n) by (unfold resize; rewrite firstn_nil, Nat.sub_0_r; reflexivity).
      assert (X : forall qs s, b_mode s = true -> b_count s = n -> length (b_slots s) = n -> Forall (fun q => snd q < n) qs ->
        calls step (qs ++ (q, i) :: r) s = None).
      { clear F qs. induction qs as [|[q' j] qs IH]; intros s M C L F; cbn [app calls]; destruct ST as [S1 _]; rewrite S1 by congruence; unfold run_into.
        - replace (Nat.ltb i (length (b_slots s))) with false by (symmetry; apply Nat.ltb_ge; lia). reflexivity.
        - inversion F as [|? ? J F']; subst. cbn [snd] in J.
          replace (Nat.ltb j (length (b_slots s))) with true by (symmetry; apply Nat.ltb_lt; lia).
          destruct (value q') as [g|].
          + rewrite IH; [reflexivity|exact M|reflexivity|cbn [b_slots]; rewrite store_length; exact L|exact F'].
          + rewrite IH; [reflexivity|exact M|reflexivity|exact L|exact F']. }
      rewrite X; [reflexivity|reflexivity|reflexivity|cbn [b_slots]; rewrite R; apply repeat_length|exact F].
    Qed.
  End Generic.

  Lemma set_twice d n m (s : batch G) s' : set_batch_mode d n s = Some s' -> 0 < n -> 0 < m -> set_batch_mode d m s' = None.
  Proof.
    unfold set_batch_mode. intros E N M.
    replace (Nat.eqb n 0) with false in E by (symmetry; apply Nat.eqb_neq; lia).
    destruct (Nat.eqb (b_count s) 0); [|discriminate]. injection E as <-. cbn [b_count].
    replace (Nat.eqb m 0) with false by (symmetry; apply Nat.eqb_neq; lia).
    replace (Nat.eqb n 0) with false by (symmetry; apply Nat.eqb_neq; lia). reflexivity.
  Qed.
End Proofs.
