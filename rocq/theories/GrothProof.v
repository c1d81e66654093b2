(** Proofs about Groth16: the group side. *)
From Coq Require Import ZArith Lia List Bool Arith Ring Field Field_theory.
From Verif Require Import Field ParallelizeModel SemigroupModel SemigroupProof PolySpec FFTModel FFTSpec R1csModel R1csSpec QapModel QapSpec QapProof GrothModel GrothSpec.
Import ListNotations.

Section GroupLaws.
  Context {K : fld} {G : group K}.
  Add Field Kg1 : (fld_theory K).
  Open Scope fld_scope.
  Implicit Types (u v w : G).
  Lemma gcancel u v w : (u + v = u + w)%grp -> v = w.
  Proof.
    intros H. rewrite <- (gadd_zero K G v), <- (gadd_zero K G w), <- (gadd_neg K G u), (gadd_comm K G u), <- !gadd_assoc, H. reflexivity.
  Qed.
  Lemma gadd_zero_r u : (u + gzero = u)%grp. Proof. rewrite gadd_comm. apply gadd_zero. Qed.
  Lemma gmul_0 u : (0 ** u = gzero)%grp.
  Proof. apply (gcancel (0 ** u)%grp). rewrite gadd_zero_r, <- gmul_add_l. f_equal. ring. Qed.
  Lemma gmul_zero (a : K) : (a ** (gzero : G) = gzero)%grp.
  Proof. apply (gcancel (a ** gzero)%grp). rewrite gadd_zero_r, <- gmul_add_r, gadd_zero_r. reflexivity. Qed.
  Lemma gneg_mul u : (- u = (- (1)) ** u)%grp.
  Proof. apply (gcancel u). rewrite gadd_neg. transitivity ((1 ** u + (- (1)) ** u)%grp); [|rewrite gmul_one; reflexivity]. rewrite <- gmul_add_l. replace (1 + - (1)) with (0 : K) by ring. symmetry. apply gmul_0. Qed.
  Lemma gneg_scalar (a : K) u : (- (a ** u) = (- a) ** u)%grp.
  Proof. rewrite gneg_mul, <- gmul_mul. f_equal. ring. Qed.
  Lemma gmul_eq_0 (a : K) u : (a ** u = gzero)%grp -> a = 0 \/ u = gzero.
  Proof.
    intros H. destruct (f_dec K a 0) as [E|N]; [left; exact E|right].
    rewrite <- (gmul_one K G u). replace (1 : K) with (finv a * a) by (field; exact N). rewrite gmul_mul, H. apply gmul_zero.
  Qed.
  (** Moving a term to the other side. *)
  Lemma gmove u v w : (u + - v = w)%grp <-> (u = w + v)%grp.
  Proof.
    split; intros H.
    - rewrite <- H, <- gadd_assoc, (gadd_comm K G (- v)%grp), gadd_neg, gadd_zero_r. reflexivity.
    - rewrite H, <- gadd_assoc, gadd_neg, gadd_zero_r. reflexivity.
  Qed.

  Lemma msm_weighted : forall (bases : list G) ss, msm_sum bases ss = weighted ss bases.
  Proof. induction bases as [|b bs IH]; intros [|s ss]; cbn; [reflexivity..|]. rewrite IH. reflexivity. Qed.
  Lemma msm_fixed (g : G) : forall ss zs, length ss = length zs -> msm_run (fixed_base g ss) zs = Some (inner zs ss ** g)%grp.
  Proof.
    intros ss zs L. unfold msm_run, fixed_base. rewrite map_length, L, Nat.eqb_refl. f_equal. revert zs L.
    induction ss as [|s ss IH]; intros [|z zs] L; try discriminate L; cbn [map msm_sum].
    - rewrite (inner_nil K). symmetry. apply gmul_0.
    - rewrite IH by (injection L; auto). rewrite (inner_cons K), gmul_add_l, gmul_mul. reflexivity.
  Qed.
  Lemma msm_false (bases : list G) ss : length bases <> length ss -> msm_run bases ss = None.
  Proof. intros H. unfold msm_run. destruct (Nat.eqb_spec (length bases) (length ss)); [contradiction|reflexivity]. Qed.
End GroupLaws.

Section Pairs.
  Context {K : fld} {G1 G2 GT : group K} (e : pairing G1 G2 GT).
  Add Field Kg2 : (fld_theory K).
  Open Scope fld_scope.
  Lemma pair_neg_r u v : (e u (- v) = - e u v)%grp.
  Proof. rewrite gneg_mul, pair_mul_r. symmetry. apply gneg_mul. Qed.
  Lemma pair_scalars (a b : K) u v : (e (a ** u) (b ** v) = (a * b) ** e u v)%grp.
  Proof. rewrite pair_mul_l, pair_mul_r, gmul_mul. reflexivity. Qed.

  (** VerifyProof decides the equation. *)
  Lemma verify_exact (vk : verifying_key G1 G2) (p : proof G1 G2) (public : list K) l0 ls : vk_l vk = l0 :: ls ->
    exists b, verify e (prepare e vk) p public = Some b /\
      (b = true <-> length public = length ls /\
         (e (pr_a p) (pr_b p) = e (vk_alpha vk) (vk_beta vk) + e (weighted (1 :: public)%fld (vk_l vk)) (vk_gamma vk) + e (pr_c p) (vk_delta vk))%grp).
  Proof.
    intros El. unfold verify, prepare_inputs, prepare. cbn [pvk_vk]. rewrite El. destruct (Nat.eq_dec (length public) (length ls)) as [L|L].
    - unfold msm_run. rewrite L, Nat.eqb_refl. cbn [option_map]. eexists. split; [reflexivity|].
      unfold verify_prepared. cbn [pvk_gamma_neg pvk_delta_neg pvk_alpha_beta]. rewrite gt_eqb_eq. cbn [weighted]. rewrite gmul_one, msm_weighted, (gadd_comm K G1 l0).
      rewrite !pair_neg_r. rewrite gmove. split.
      + intros H. split; [reflexivity|]. apply (proj1 (gmove _ _ _)) in H. rewrite H. set (X := e (weighted public ls + l0)%grp (vk_gamma vk)). set (Y := e (pr_c p) (vk_delta vk)).
        rewrite <- !gadd_assoc. f_equal. apply gadd_comm.
      + intros [_ H]. apply (proj2 (gmove _ _ _)). rewrite H. set (X := e (weighted public ls + l0)%grp (vk_gamma vk)). set (Y := e (pr_c p) (vk_delta vk)).
        rewrite <- !gadd_assoc. f_equal. apply gadd_comm.
    - rewrite msm_false by auto. exists false. split; [reflexivity|]. split; [discriminate|]. intros [H _]. contradiction.
  Qed.
  (** On multiples of the generators, the equation is one of scalars. *)
  Lemma verify_scalars (vk : verifying_key G1 G2) (p : proof G1 G2) (public l : list K) g1 g2 (al be ga de a b c : K) : l <> [] ->
    vk = mk_vk (al ** g1)%grp (be ** g2)%grp (ga ** g2)%grp (de ** g2)%grp (fixed_base g1 l) ->
    p = mk_proof (a ** g1)%grp (b ** g2)%grp (c ** g1)%grp -> length public = (length l - 1)%nat ->
    (a * b = al * be + inner (1 :: public) l * ga + c * de -> verify e (prepare e vk) p public = Some true) /\
    (e g1 g2 <> gzero -> verify e (prepare e vk) p public = Some true -> a * b = al * be + inner (1 :: public) l * ga + c * de).
  Proof.
    intros Hl Ev Ep Lp. destruct l as [|x l]; [contradiction|]. cbn [length] in Lp. rewrite Nat.sub_succ, Nat.sub_0_r in Lp.
    assert (El : vk_l vk = (x ** g1)%grp :: fixed_base g1 l) by (rewrite Ev; reflexivity).
    destruct (verify_exact vk p public _ _ El) as (bb & Eb & Hb). unfold fixed_base in Hb. rewrite map_length in Hb. rewrite El in Hb. rewrite Ev, Ep in Hb.
    cbn [vk_alpha vk_beta vk_gamma vk_delta pr_a pr_b pr_c weighted] in Hb.
    assert (W : weighted public (map (fun s => s ** g1)%grp l) = (inner public l ** g1)%grp).
    { rewrite <- msm_weighted. pose proof (msm_fixed g1 l public (eq_sym Lp)) as M. unfold msm_run, fixed_base in M. rewrite map_length, Lp, Nat.eqb_refl in M. injection M as M. exact M. }
    unfold fixed_base in Hb. rewrite W in Hb. rewrite gmul_one, <- gmul_add_l, !pair_scalars, <- !gmul_add_l in Hb.
    assert (I : inner (1 :: public) (x :: l) = x + inner public l) by (rewrite (inner_cons K); ring). rewrite I, Eb. split.
    - intros H. f_equal. apply Hb. split; [exact Lp|]. rewrite H. reflexivity.
    - intros Hn H. injection H as ->. destruct Hb as [Hb _]. destruct (Hb eq_refl) as [_ E]. clear Hb Eb.
      apply (proj1 (fsub_eq0 K _ _)).
      assert (Z : ((a * b - (al * be + (x + inner public l) * ga + c * de))%fld ** e g1 g2 = gzero)%grp).
      { match goal with |- ((?p - ?q) ** _ = _)%grp => replace (p - q) with (p + - q) by ring end. rewrite gmul_add_l, E, <- gneg_scalar. apply gadd_neg. }
      apply gmul_eq_0 in Z. destruct Z as [Z|Z]; [exact Z|contradiction].
  Qed.

  (** ReRandomizeProof changes neither acceptance nor rejection. *)
  Lemma re_randomize_verify (vk : verifying_key G1 G2) (p : proof G1 G2) (public : list K) (r1 r2 : K) : r1 <> 0 ->
    exists p', re_randomize vk p r1 r2 = Some p' /\ verify e (prepare e vk) p' public = verify e (prepare e vk) p public.
  Proof.
    intros Hr. unfold re_randomize. destruct (feqb r1 0) eqn:E0; [apply feqb_eq in E0; contradiction|]. eexists. split; [reflexivity|].
    destruct (vk_l vk) as [|l0 ls] eqn:El; [unfold verify, prepare_inputs, prepare; cbn [pvk_vk]; rewrite El; reflexivity|].
    match goal with |- verify _ _ ?q _ = _ => destruct (verify_exact vk q public l0 ls El) as (b' & E1 & H1) end.
    destruct (verify_exact vk p public l0 ls El) as (b & E2 & H2). rewrite E1, E2. f_equal. cbn [pr_a pr_b pr_c] in H1.
    assert (HE : (e (finv r1 ** pr_a p) (r1 ** (r2 ** vk_delta vk + pr_b p)) = e (r2 ** pr_a p) (vk_delta vk) + e (pr_a p) (pr_b p))%grp).
    { rewrite pair_scalars. replace (finv r1 * r1) with (1 : K) by (field; exact Hr). rewrite gmul_one, pair_add_r. f_equal. rewrite pair_mul_r, pair_mul_l. reflexivity. }
    rewrite HE, pair_add_l in H1.
    assert (HW : b' = true <-> b = true).
    { rewrite H1, H2. split; intros [L H]; (split; [exact L|]).
      - apply (gcancel (e (r2 ** pr_a p) (vk_delta vk))%grp). rewrite H. rewrite !gadd_assoc. f_equal. rewrite (gadd_comm K GT _ (e (r2 ** pr_a p) (vk_delta vk))%grp), !gadd_assoc. reflexivity.
      - rewrite H. rewrite !gadd_assoc. f_equal. rewrite (gadd_comm K GT _ (e (r2 ** pr_a p) (vk_delta vk))%grp), !gadd_assoc. reflexivity. }
    destruct b, b'; try reflexivity; [apply HW; reflexivity|symmetry; apply HW; reflexivity].
  Qed.
End Pairs.
