(** The curve as an abelian group, and its point types as computing in it. *)
From Coq Require Import ZArith List Bool Lia Permutation Ring Field Field_theory.
From Verif Require Import Field ECModel ECSpec ECProof ECProof2 ECExtra ECGroup BigIntSpec SemigroupSpec MSMModel MSMSpec MSMProof MSMProof2 MSMProof3.
Import ListNotations.
Open Scope fld_scope.

(** The operations of the point types: affine bases with XYZZ buckets (PippengerTraits), affine bases with Jacobian sums (fixed base, GLV), and the
    types that are their own bucket. *)
Definition xyzz_ops {K : fld} (a : K) (a0 : bool) : bucket_ops (affine K) (xyzz K) :=
  mk_ops _ _ x_zero (x_add a a0) (x_add_in_place a a0) (x_double_in_place a a0) (x_madd_in_place a a0) a_neg.
Definition jac_affine_ops {K : fld} (a : K) (a0 low : bool) : bucket_ops (affine K) (jacobian K) :=
  mk_ops _ _ j_zero (j_add a a0 low) (j_add_in_place a a0 low) (j_double_in_place a a0 low) (j_madd_in_place a a0 low) a_neg.
Definition jac_ops {K : fld} (a : K) (a0 low : bool) : bucket_ops (jacobian K) (jacobian K) :=
  mk_ops _ _ j_zero (j_add a a0 low) (j_add_in_place a a0 low) (j_double_in_place a a0 low) (j_add_in_place a a0 low) j_neg.
Definition proj_ops {K : fld} (a : K) (a0 : bool) : bucket_ops (projective K) (projective K) :=
  mk_ops _ _ p_zero (p_add a a0) (p_add_in_place a a0) (p_double_in_place a a0) (p_add_in_place a a0) p_neg.
Definition xyzz_self_ops {K : fld} (a : K) (a0 : bool) : bucket_ops (xyzz K) (xyzz K) :=
  mk_ops _ _ x_zero (x_add a a0) (x_add_in_place a a0) (x_double_in_place a a0) (x_add_in_place a a0) x_neg.

Section Curve.
  Variables (K : fld) (a b : K) (a0 low : bool).
  Hypothesis two : (1 + 1 : K) <> 0.
  Hypothesis Ha : a0 = true -> a = 0.
  Hypothesis disc : fnat 4 * (a * a * a) + fnat 27 * (b * b) <> 0.
  Notation group := (abelian_group (on_curve a b) None (plus a) minus).

  Lemma curve_group : group.
  Proof.
    split.
    - exact I.
    - intros P Q. apply plus_on_curve; auto.
    - intro P. apply minus_on_curve.
    - intros P Q R HP HQ HR. symmetry. apply (plus_assoc K a b two (smooth_of_discriminant K a b disc)); auto.
    - intros P Q HP HQ. apply (plus_comm K a b); auto.
    - intros P _. reflexivity.
    - intros P _. apply plus_minus.
  Qed.

  Notation okA := (fun p : affine K => on_curve a b (aff p)).
  Notation okJ := (fun p : jacobian K => on_curve a b (jac p)).
  Notation okP := (fun p : projective K => on_curve a b (proj p)).
  Notation okX := (fun p : xyzz K => xyzz_ok p /\ on_curve a b (xyzz_pt p)).

  Lemma aff_neg (p : affine K) : aff (a_neg p) = minus (aff p).
  Proof. exact (proj1 (proj2 (c86_affine_equality K p p))). Qed.
  Lemma x_zero_ok : xyzz_ok (x_zero (K := K)) /\ xyzz_pt (x_zero (K := K)) = None.
  Proof.
    assert (O : xyzz_ok (a_to_x (a_zero (K := K)))) by apply c49_from_affine.
    destruct (c48_other K _ _ O O) as (_ & _ & _ & _ & E & E'). auto.
  Qed.
  Lemma x_neg_ok (s : xyzz K) : xyzz_ok s -> xyzz_ok (x_neg s) /\ xyzz_pt (x_neg s) = minus (xyzz_pt s).
  Proof. intro O. destruct (c48_other K s s O O) as (_ & E & E' & _). auto. Qed.

  Lemma xyzz_computes : computes_in (on_curve a b) None (plus a) minus okA aff okX xyzz_pt (xyzz_ops a a0).
  Proof.
    split; cbn [xyzz_ops b_zero b_add b_add_in_place b_double_in_place b_madd_in_place b_neg_point].
    - auto.
    - intros s [_ H]; auto.
    - destruct x_zero_ok as [O E]. split; [split; auto; rewrite E; exact I|auto].
    - intros s t [O1 H1] [O2 H2]. destruct (c48_add K a b a0 two Ha s t O1 O2 H1 H2) as (E & _ & O & H). auto.
    - intros s t [O1 H1] [O2 H2]. destruct (c48_add K a b a0 two Ha s t O1 O2 H1 H2) as (E & -> & O & H). auto.
    - intros s [O1 H1]. destruct (c48_double K a a0 two Ha s a_zero O1) as (_ & E & _ & O & _). split; [split; [auto|]|auto].
      rewrite E. apply plus_on_curve; auto.
    - intros s p [O1 H1] Hp. destruct (c48_madd K a b a0 two Ha s p O1 H1 Hp) as (E & -> & O & H). auto.
    - intros p Hp. rewrite aff_neg. split; [apply minus_on_curve|]; auto.
  Qed.
  Lemma xyzz_self_computes : computes_in (on_curve a b) None (plus a) minus okX xyzz_pt okX xyzz_pt (xyzz_self_ops a a0).
  Proof.
    split; cbn [xyzz_self_ops b_zero b_add b_add_in_place b_double_in_place b_madd_in_place b_neg_point].
    - intros s [_ H]; auto.
    - intros s [_ H]; auto.
    - destruct x_zero_ok as [O E]. split; [split; auto; rewrite E; exact I|auto].
    - intros s t [O1 H1] [O2 H2]. destruct (c48_add K a b a0 two Ha s t O1 O2 H1 H2) as (E & _ & O & H). auto.
    - intros s t [O1 H1] [O2 H2]. destruct (c48_add K a b a0 two Ha s t O1 O2 H1 H2) as (E & -> & O & H). auto.
    - intros s [O1 H1]. destruct (c48_double K a a0 two Ha s a_zero O1) as (_ & E & _ & O & _). split; [split; [auto|]|auto].
      rewrite E. apply plus_on_curve; auto.
    - intros s t [O1 H1] [O2 H2]. destruct (c48_add K a b a0 two Ha s t O1 O2 H1 H2) as (E & -> & O & H). auto.
    - intros s [O1 H1]. destruct (x_neg_ok s O1) as [O E]. rewrite E. split; [split; [auto|apply minus_on_curve; auto]|auto].
  Qed.
  Lemma proj_computes : computes_in (on_curve a b) None (plus a) minus okP proj okP proj (proj_ops a a0).
  Proof.
    pose proof (c47_other K p_zero p_zero) as (_ & _ & _ & Z0).
    split; cbn [proj_ops b_zero b_add b_add_in_place b_double_in_place b_madd_in_place b_neg_point]; auto.
    - rewrite Z0. split; [exact I|auto].
    - intros s t H1 H2. destruct (c47_add K a b a0 two Ha s t H1 H2) as (E & _ & H). auto.
    - intros s t H1 H2. destruct (c47_add K a b a0 two Ha s t H1 H2) as (E & -> & H). auto.
    - intros s H1. destruct (c47_double K a a0 two Ha s a_zero) as (_ & E & _). rewrite E. split; [apply plus_on_curve; auto|auto].
    - intros s t H1 H2. destruct (c47_add K a b a0 two Ha s t H1 H2) as (E & -> & H). auto.
    - intros s H1. pose proof (c47_other K s s) as (_ & E & _). rewrite E. split; [apply minus_on_curve; auto|auto].
  Qed.
  (** Jacobian points: on curves with a = 0 (C84). *)
  Hypothesis zero_a : a0 = true.
  Lemma jac_computes : computes_in (on_curve a b) None (plus a) minus okJ jac okJ jac (jac_ops a a0 low).
  Proof.
    pose proof (c46_other K j_zero j_zero) as (_ & _ & _ & Z0).
    split; cbn [jac_ops b_zero b_add b_add_in_place b_double_in_place b_madd_in_place b_neg_point]; auto.
    - rewrite Z0. split; [exact I|auto].
    - intros s t H1 H2. destruct (c46_add K a b a0 low two Ha s t (or_introl zero_a) H1 H2) as (E & _ & H). auto.
    - intros s t H1 H2. destruct (c46_add K a b a0 low two Ha s t (or_introl zero_a) H1 H2) as (E & -> & H). auto.
    - intros s H1. destruct (c46_double K a a0 low two Ha s zero_a) as (_ & E). rewrite E. split; [apply plus_on_curve; auto|auto].
    - intros s t H1 H2. destruct (c46_add K a b a0 low two Ha s t (or_introl zero_a) H1 H2) as (E & -> & H). auto.
    - intros s H1. pose proof (c46_other K s s) as (_ & E & _). rewrite E. split; [apply minus_on_curve; auto|auto].
  Qed.
  Lemma jac_affine_computes : computes_in (on_curve a b) None (plus a) minus okA aff okJ jac (jac_affine_ops a a0 low).
  Proof.
    destruct jac_computes as [? ? Z0 A1 A2 D _ _].
    split; cbn [jac_affine_ops b_zero b_add b_add_in_place b_double_in_place b_madd_in_place b_neg_point]; auto.
    - intros s p H1 H2. destruct (c46_madd K a b a0 low two Ha s p (or_introl zero_a) H1 H2) as (E & -> & H). auto.
    - intros p Hp. rewrite aff_neg. split; [apply minus_on_curve|]; auto.
  Qed.
End Curve.

(** ** The forms used by the properties. *)
Section Forms.
  Context {G P B : Type} (mem : G -> Prop) (zero : G) (add : G -> G -> G) (opp : G -> G).
  Context (okp : P -> Prop) (vp : P -> G) (okb : B -> Prop) (vb : B -> G) (ops : bucket_ops P B).

  Lemma pippenger_any : abelian_group mem zero add opp -> computes_in mem zero add opp okp vp okb vb ops ->
    forall (bases : list P) (scalars : list (list Z)) (n mb w : nat) (naf : bool) (order : list nat),
    Forall okp bases -> length bases = length scalars -> Forall (scalar_ok n mb) scalars -> (1 <= w <= 62)%nat -> (0 < mb <= 64 * n)%nat ->
    schedule (windows_count mb w) order ->
    exists r, pippenger_run ops naf order mb w bases scalars = Some (Some r) /\ okb r /\ vb r = msm zero add opp (map val64 scalars) (map vp bases).
  Proof.
    intros HG HC bases scalars n mb w naf order Ok L Sc Hw Hm Ho.
    apply (pippenger_spec mem zero add opp okp vp okb vb ops HG HC (map vp bases) (vp_mem mem zero add opp okp vp okb vb ops HC bases Ok) bases scalars n mb w); auto.
  Qed.
  Lemma size_mismatch s naf order orders threads mb w bits (bases : list P) (scalars : list (list Z)) : length bases <> length scalars ->
    pippenger_run ops naf order mb w bases scalars = Some None /\ adapter_run ops s naf orders threads mb bits bases scalars = Some None.
  Proof.
    intro H. apply Nat.eqb_neq in H. unfold adapter_run, pippenger_run. rewrite H. cbn [negb]. split; [reflexivity|]. destruct s; reflexivity.
  Qed.
  Lemma fixed_base_all : abelian_group mem zero add opp -> computes_in mem zero add opp okp vp okb vb ops ->
    forall (base : B) (n mb w : nat), okb base -> (0 < w)%nat -> (0 < mb)%nat ->
    exists rows, update_window_table ops mb w base = Some rows /\
      (forall s, scalar_ok n mb s -> exists r, fixed_base_scalar_mul ops mb w rows s = Some r /\ okb r /\ vb r = zmul zero add opp (val64 s) (vb base)) /\
      (forall scalars outputs order, Forall (scalar_ok n mb) scalars -> length scalars = length outputs -> schedule (length scalars) order ->
        exists rs, fixed_base_run ops order mb w rows scalars outputs = Some (Some rs) /\ Forall okb rs /\
                   map vb rs = map (fun s => zmul zero add opp (val64 s) (vb base)) scalars) /\
      (forall scalars outputs order, length scalars <> length outputs -> fixed_base_run ops order mb w rows scalars outputs = Some None).
  Proof.
    intros HG HC base n mb w Ob Hw Hm. pose proof (ci_mem_b _ _ _ _ _ _ _ _ _ HC base Ob) as Mb.
    destruct (update_window_table_spec mem zero add opp okp vp okb vb ops HG HC (vb base) Mb mb w base Hw Hm Ob eq_refl) as (rows & E & T).
    exists rows. split; [exact E|]. split; [|split].
    - intros s Hs. apply (fixed_base_spec mem zero add opp okp vp okb vb ops HG HC (vb base) Mb n mb w rows s Hw Hm T Hs).
    - intros scalars outputs order Hs HL Ho.
      apply (fixed_base_run_spec mem zero add opp okp vp okb vb ops HG HC (vb base) Mb n mb w rows scalars outputs order Hw Hm T Hs HL Ho).
    - intros scalars outputs order HL. apply Nat.eqb_neq in HL. unfold fixed_base_run. rewrite HL. reflexivity.
  Qed.
End Forms.

Section CurveForms.
  Variables (K : fld) (a b : K) (a0 low : bool).
  Hypothesis two : (1 + 1 : K) <> 0.
  Hypothesis Ha : a0 = true -> a = 0.
  Hypothesis disc : fnat 4 * (a * a * a) + fnat 27 * (b * b) <> 0.

  (** MSM on affine points of a curve, through every strategy: the end-to-end statement. *)
  Lemma adapter_on_curve (s : strategy) naf orders threads n mb bits (bases : list (affine K)) (scalars : list (list Z)) :
    (forall i c, schedule c (orders i c)) -> (forall k, (1 <= bits k <= 62)%nat) -> (0 < mb <= 64 * n)%nat ->
    (0 < threads)%Z -> (2 * Z.of_nat (length scalars) + threads < 2 ^ 64)%Z ->
    Forall (fun p => on_curve a b (aff p)) bases -> Forall (scalar_ok n mb) scalars -> length bases = length scalars ->
    exists r, adapter_run (xyzz_ops a a0) s naf orders threads mb bits bases scalars = Some (Some r) /\ xyzz_ok r /\
      xyzz_pt r = msm None (plus a) minus (map val64 scalars) (map aff bases).
  Proof.
    intros H1 H2 H3 H4 H5 H6 H7 H8.
    destruct (adapter_spec (on_curve a b) None (plus a) minus _ aff _ xyzz_pt (xyzz_ops a a0) (curve_group K a b two disc) (xyzz_computes K a b a0 two Ha)
                s naf orders threads n mb bits bases scalars H1 H2 H3 H4 H5 H6 H7 H8) as (r & E & [O _] & V). eauto.
  Qed.

  Lemma fixed_base_on_curve (base : affine K) n mb w : a0 = true -> on_curve a b (aff base) -> (0 < w)%nat -> (0 < mb)%nat ->
    exists rows, update_window_table (jac_affine_ops a a0 low) mb w (a_to_j base) = Some rows /\
      forall s, scalar_ok n mb s -> exists r, fixed_base_scalar_mul (jac_affine_ops a a0 low) mb w rows s = Some r /\
                jac r = zmul None (plus a) minus (val64 s) (aff base).
  Proof.
    intros Z0 Hb Hw Hm. destruct (c49_from_affine K base) as (EJ & _).
    destruct (fixed_base_all (on_curve a b) None (plus a) minus _ aff _ jac (jac_affine_ops a a0 low) (curve_group K a b two disc)
                (jac_affine_computes K a b a0 low two Ha Z0) (a_to_j base) n mb w) as (rows & E & S & _); auto.
    - rewrite EJ. exact Hb.
    - exists rows. split; [exact E|]. intros s Hs. destruct (S s Hs) as (r & Er & _ & V). rewrite EJ in V. eauto.
  Qed.

  (** glv.h: Mul on affine points; the endomorphism maps (x, y) to (beta x, y). *)
  Lemma glv_on_curve (beta : K) c r lambda (p : affine K) k : a0 = true ->
    (0 < r)%Z -> (r | n11 c + lambda * n12 c)%Z -> (r | n21 c + lambda * n22 c)%Z ->
    on_curve a b (aff p) -> on_curve a b (aff (mkA (ax p * beta) (ay p))) ->
    aff (mkA (ax p * beta) (ay p)) = zmul None (plus a) minus lambda (aff p) -> zmul None (plus a) minus r (aff p) = None ->
    (let k1k2 := glv_decompose c r k in mpz_num_bits (Z.abs (fst k1k2)) = mpz_num_bits (Z.abs (snd k1k2)) \/ snd k1k2 = 0%Z) ->
    jac (glv_mul (jac_affine_ops a a0 low) (a_add a a0 low) (fun p => mkA (ax p * beta) (ay p)) c r p k) = zmul None (plus a) minus k (aff p).
  Proof.
    intros Z0 Hr H1 H2 Hp He Ve Vr Hb.
    refine (proj2 (glv_mul_spec (on_curve a b) None (plus a) minus _ aff _ jac (jac_affine_ops a a0 low) (curve_group K a b two disc)
                (jac_affine_computes K a b a0 low two Ha Z0) (a_add a a0 low) (fun p => mkA (ax p * beta) (ay p)) c r lambda _ Hr H1 H2 p k Hp He Ve Vr Hb)).
    intros q q' Hq Hq'. destruct (c46_affine K a b a0 low two Ha q q' j_zero (or_introl Z0) Hq Hq') as (E & _).
    - rewrite (proj2 (proj2 (proj2 (c46_other K j_zero j_zero)))). exact I.
    - cbv beta. rewrite E. split; [apply plus_on_curve; auto|auto].
  Qed.
End CurveForms.

(** ** The GLV configurations *)
Definition glv_configs : list glv_config := [bn254_g1_glv; bn254_g2_glv; bls12_381_g1_glv; bls12_381_g2_glv].
Lemma glv_configs_rows : Forall (fun g => (0 < glv_modulus g)%Z /\ (glv_modulus g | n11 (glv_rows g) + glv_lambda g * n12 (glv_rows g))%Z /\
  (glv_modulus g | n21 (glv_rows g) + glv_lambda g * n22 (glv_rows g))%Z /\
  (n11 (glv_rows g) * n22 (glv_rows g) - n12 (glv_rows g) * n21 (glv_rows g) = glv_modulus g)%Z /\
  (Z.abs (n11 (glv_rows g)) + Z.abs (n21 (glv_rows g)) < 2 ^ 128)%Z /\ (Z.abs (n12 (glv_rows g)) + Z.abs (n22 (glv_rows g)) < 2 ^ 128)%Z) glv_configs.
Proof.
  repeat constructor; try (apply Z.mod_divide; [discriminate|]; vm_compute; reflexivity).
Qed.
Lemma glv_decompose_all g k : In g glv_configs ->
  let k1k2 := glv_decompose (glv_rows g) (glv_modulus g) k in
  ((fst k1k2 + glv_lambda g * snd k1k2) mod glv_modulus g = k mod glv_modulus g)%Z /\ (Z.abs (fst k1k2) < 2 ^ 128)%Z /\ (Z.abs (snd k1k2) < 2 ^ 128)%Z.
Proof.
  intro Hg. pose proof (proj1 (Forall_forall _ _) glv_configs_rows g Hg) as (H0 & H1 & H2 & D & B1 & B2). cbv zeta.
  pose proof (glv_congruence (glv_rows g) (glv_modulus g) k (glv_lambda g) ltac:(intro E; rewrite E in H0; discriminate) H1 H2) as [q Hq]. cbv zeta in Hq.
  pose proof (glv_bounds (glv_rows g) (glv_modulus g) k H0 D) as (A1 & A2).
  split; [|split; eapply Z.le_lt_trans; eauto].
  replace (fst (glv_decompose (glv_rows g) (glv_modulus g) k) + glv_lambda g * snd (glv_decompose (glv_rows g) (glv_modulus g) k))%Z with (k + q * glv_modulus g)%Z.
  - apply Z_mod_plus_full.
  - rewrite <- Hq. ring.
Qed.

(** The integers modulo m, as point type and bucket type. *)
Definition mod_ops (m : Z) : bucket_ops Z Z :=
  mk_ops Z Z 0%Z (fun x y => (x + y) mod m)%Z (fun x y => (x + y) mod m)%Z (fun x => (x + x) mod m)%Z (fun x y => (x + y) mod m)%Z (fun x => (- x) mod m)%Z.
Definition mod_mem (m x : Z) : Prop := (0 <= x < m)%Z.
Lemma mod_group m : (0 < m)%Z -> abelian_group (mod_mem m) 0%Z (fun x y => (x + y) mod m)%Z (fun x => (- x) mod m)%Z.
Proof.
  intro Hm. unfold mod_mem. split; intros.
  - lia.
  - apply Z.mod_pos_bound; auto.
  - apply Z.mod_pos_bound; auto.
  - rewrite Zplus_mod_idemp_l, Zplus_mod_idemp_r. f_equal. ring.
  - f_equal. ring.
  - apply Z.mod_small. lia.
  - rewrite Zplus_mod_idemp_r. replace (x + - x)%Z with 0%Z by ring. apply Z.mod_0_l. lia.
Qed.
Lemma mod_computes m : (0 < m)%Z -> computes_in (mod_mem m) 0%Z (fun x y => (x + y) mod m)%Z (fun x => (- x) mod m)%Z (mod_mem m) (fun x => x) (mod_mem m) (fun x => x) (mod_ops m).
Proof.
  intro Hm. unfold mod_mem, mod_ops. split; cbn [b_zero b_add b_add_in_place b_double_in_place b_madd_in_place b_neg_point]; intros; auto;
    try (split; [apply Z.mod_pos_bound; auto|reflexivity]). split; [lia|reflexivity].
Qed.
Lemma times_mod m n : (0 < m)%Z -> times 0%Z (fun x y => (x + y) mod m)%Z n 1%Z = (Z.of_nat n mod m)%Z.
Proof.
  intro Hm. induction n as [|n IH]; [rewrite Z.mod_0_l by lia; reflexivity|]. cbn [times]. rewrite IH, Nat2Z.inj_succ.
  first [rewrite Zplus_mod_idemp_l|rewrite Zplus_mod_idemp_r]. f_equal. lia.
Qed.
Lemma zmul_mod m z : (0 < m)%Z -> zmul 0%Z (fun x y => (x + y) mod m)%Z (fun x => (- x) mod m)%Z z 1%Z = (z mod m)%Z.
Proof.
  intro Hm. destruct z as [|p|p]; cbn [zmul]; rewrite ?times_mod, ?positive_nat_Z by auto; auto.
  - change (Z.neg p) with (- Z.pos p)%Z. 
    rewrite <- (Z.sub_0_l (Z.pos p mod m)), <- (Z.sub_0_l (Z.pos p)). rewrite Zminus_mod_idemp_r. reflexivity.
Qed.

Lemma glv_mul_mod g k : In g glv_configs ->
  let m := glv_modulus g in let endo := (fun p => (glv_lambda g * p) mod m)%Z in
  let k1 := fst (glv_decompose (glv_rows g) m k) in let k2 := snd (glv_decompose (glv_rows g) m k) in
  let d := (Z.of_nat (mpz_num_bits (Z.abs k1)) - Z.of_nat (mpz_num_bits (Z.abs k2)))%Z in
  glv_mul (mod_ops m) (fun x y => (x + y) mod m)%Z endo (glv_rows g) m 1%Z k =
  ((k1 + glv_lambda g * (Z.sgn k2 * Z.shiftl (Z.abs k2) d)) mod m)%Z.
Proof.
  intro Hg. assert (Hm1 : (1 < glv_modulus g)%Z).
  { unfold glv_configs in Hg. cbn [In] in Hg. destruct Hg as [<-|[<-|[<-|[<-|[]]]]]; reflexivity. }
  assert (Hm : (0 < glv_modulus g)%Z) by lia.
  cbv zeta.
  assert (M1 : mod_mem (glv_modulus g) 1) by (unfold mod_mem; lia).
  destruct (glv_mul_value (mod_mem (glv_modulus g)) 0%Z (fun x y => (x + y) mod glv_modulus g)%Z (fun x => (- x) mod glv_modulus g)%Z
    (mod_mem (glv_modulus g)) (fun x => x) (mod_mem (glv_modulus g)) (fun x => x) (mod_ops (glv_modulus g)) (mod_group _ Hm) (mod_computes _ Hm)
    (fun x y => (x + y) mod glv_modulus g)%Z (fun p => (glv_lambda g * p) mod glv_modulus g)%Z (glv_rows g) (glv_modulus g) (glv_lambda g)) with (p := 1%Z) (k := k) as [_ V].
  - intros p q _ _. split; [apply Z.mod_pos_bound; exact Hm|reflexivity].
  - exact M1.
  - apply Z.mod_pos_bound. exact Hm.
  - rewrite zmul_mod by exact Hm. f_equal. ring.
  - etransitivity; [exact V|]. apply zmul_mod. exact Hm.
Qed.
Lemma glv_mul_wrong :
  let g := bn254_g1_glv in let m := glv_modulus g in let endo := (fun p => (glv_lambda g * p) mod m)%Z in
  glv_mul (mod_ops m) (fun x y => (x + y) mod m)%Z endo (glv_rows g) m 1%Z (2 ^ 127)%Z <> (2 ^ 127 mod m)%Z /\
  glv_mul (mod_ops m) (fun x y => (x + y) mod m)%Z endo (glv_rows g) m 1%Z (glv_lambda g) <> (glv_lambda g mod m)%Z.
Proof.
  cbv zeta. split; rewrite (glv_mul_mod bn254_g1_glv) by (left; reflexivity).
  - apply Z.eqb_neq. vm_compute. reflexivity.
  - apply Z.eqb_neq. vm_compute. reflexivity.
Qed.

Lemma adapter_threads_kept s max_threads window_count : s <> kParallelWindowAndTerm -> adapter_threads_after s max_threads window_count = max_threads.
Proof. intro H. destruct s; try reflexivity. contradiction. Qed.
Lemma adapter_threads_lost max_threads window_count : (0 < window_count)%Z -> (0 < max_threads)%Z ->
  (adapter_threads_after kParallelWindowAndTerm max_threads window_count = max_threads <-> max_threads = 2 \/ (window_count = 1 /\ 2 <= max_threads))%Z.
Proof.
  intros Hw Hm. unfold adapter_threads_after, adapter_threads. rewrite Z.quot_div_nonneg by lia.
  destruct (Z.eq_dec window_count 1) as [->|Hw1]; [rewrite Z.div_1_r; lia|].
  assert (max_threads / window_count < max_threads)%Z by (apply Z.div_lt; lia). lia.
Qed.
