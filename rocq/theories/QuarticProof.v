(** Proofs about the quartic extension field model. *)
From Coq Require Import List Bool Arith Lia Ring Field Field_theory Ring_theory.
From Verif Require Import Field ExtFieldModel ExtFieldSpec ExtFieldProof.
Import ListNotations.
Open Scope fld_scope.

Section Quart.
  Variable K : fld.
  Add Field Kf3 : (fld_theory K).
  Variables (q : K) (nr : K -> K).
  Hypothesis Hnr : forall x, nr x = q * x.
  Hypotheses (H2 : (fnat 2 : K) <> 0) (H3 : (fnat 3 : K) <> 0) (H5 : (fnat 5 : K) <> 0).

  Lemma fnat_add n m : (fnat (n + m) : K) = fnat n + fnat m.
  Proof. induction n; cbn [fnat Nat.add]; [ring | rewrite IHn; ring]. Qed.
  Lemma fnat_mul n m : (fnat (n * m) : K) = fnat n * fnat m.
  Proof. induction n; cbn [fnat Nat.mul]; [ring | rewrite fnat_add, IHn; ring]. Qed.

  Let two : K := 1 + 1.
  Lemma fnat_2 : fnat 2 = two. Proof. unfold two. cbn [fnat]. ring. Qed.
  Lemma N2 : two <> 0. Proof. rewrite <- fnat_2. exact H2. Qed.

  Lemma quartic_ext (x y : quartic K) : r0 x = r0 y -> r1 x = r1 y -> r2 x = r2 y -> r3 x = r3 y -> x = y.
  Proof. destruct x, y; cbn. intros -> -> -> ->. reflexivity. Qed.

  Definition rm (x y : quartic K) : quartic K :=
    Quartic (r0 x * r0 y + q * (r1 x * r3 y + r2 x * r2 y + r3 x * r1 y))
            (r0 x * r1 y + r1 x * r0 y + q * (r2 x * r3 y + r3 x * r2 y))
            (r0 x * r2 y + r1 x * r1 y + r2 x * r0 y + q * (r3 x * r3 y))
            (r0 x * r3 y + r1 x * r2 y + r2 x * r1 y + r3 x * r0 y).

  Lemma N120 : (fnat 120 : K) <> 0.
  Proof.
    change 120%nat with (2 * (2 * (2 * (3 * 5))))%nat. rewrite !fnat_mul. repeat apply fmul_neq0; assumption.
  Qed.
  Lemma kInv_of_120 n m : (n * m = 120)%nat -> (kInv n : K) = fnat m * kInv 120.
  Proof.
    intros E. unfold kInv. symmetry. apply finv_unique. pose proof N120 as H. rewrite <- E in *. rewrite fnat_mul in *.
    field. split; intros C; apply H; rewrite C; ring.
  Qed.
  Let n5 : K := 1 + (1 + 1) * (1 + 1).
  Let n120 : K := (1 + 1) * (1 + 1) * (1 + 1) * (1 + 1 + 1) * n5.
  Lemma kInv120_spec : n120 * kInv 120 = 1.
  Proof.
    replace n120 with (fnat 120 : K).
    - unfold kInv. apply finv_r. exact N120.
    - change 120%nat with (2 * 2 * 2 * 3 * 5)%nat. rewrite !fnat_mul. unfold n120, n5. cbn [fnat]. ring.
  Qed.
  Lemma kInv_eqs (u : K) : u = kInv 120 ->
    kInv 2 = (1 + 1) * (1 + 1) * (1 + 1 + 1) * n5 * u /\
    kInv3 = (1 + 1) * (1 + 1) * (1 + 1) * n5 * u /\
    kInv4 = (1 + 1) * (1 + 1 + 1) * n5 * u /\
    kInv6 = (1 + 1) * (1 + 1) * n5 * u /\
    kInv12 = (1 + 1) * n5 * u /\
    kInv20 = (1 + 1) * (1 + 1 + 1) * u /\
    kInv24 = n5 * u /\
    kInv30 = (1 + 1) * (1 + 1) * u /\
    kInv120 = u /\
    kNeg5 = - n5.
  Proof.
    intros ->. unfold kInv3, kInv4, kInv6, kInv12, kInv20, kInv24, kInv30, kInv120, kNeg5.
    rewrite (kInv_of_120 2 60), (kInv_of_120 3 40), (kInv_of_120 4 30), (kInv_of_120 6 20), (kInv_of_120 12 10),
            (kInv_of_120 20 6), (kInv_of_120 24 5), (kInv_of_120 30 4) by reflexivity.
    generalize (kInv 120 : K). intros u.
    replace (fnat 60 : K) with (fnat (2 * 2 * 3 * 5) : K) by reflexivity. replace (fnat 40 : K) with (fnat (2 * 2 * 2 * 5) : K) by reflexivity.
    replace (fnat 30 : K) with (fnat (2 * 3 * 5) : K) by reflexivity. replace (fnat 20 : K) with (fnat (2 * 2 * 5) : K) by reflexivity.
    replace (fnat 10 : K) with (fnat (2 * 5) : K) by reflexivity. replace (fnat 6 : K) with (fnat (2 * 3) : K) by reflexivity.
    replace (fnat 4 : K) with (fnat (2 * 2) : K) by reflexivity.
    rewrite !fnat_mul. unfold n5. cbn [fnat].
    repeat (split; [ring|]). ring.
  Qed.

  Lemma quartic_do_mul_eq ra rb c : quartic_do_mul nr ra rb c = rm (deref ra c) (deref rb c).
  Proof.
    unfold quartic_do_mul. generalize (deref ra c) (deref rb c). intros a b.
    unfold quartic_interpolate, rm, dbl. rewrite !Hnr.
    unfold kNegInv2, kNegInv3, kNegInv4, kNegInv6, kNegInv12, kNegInv24, kNegInv120.
    pose proof kInv120_spec as U. remember (kInv 120) as u eqn:Eu.
    destruct (kInv_eqs u Eu) as (-> & -> & -> & -> & -> & -> & -> & -> & -> & ->). unfold n120, n5 in *.
    apply quartic_ext; cbn [set_r0 set_r1 set_r2 set_r3 r0 r1 r2 r3]; ring [U].
  Qed.
  Lemma quartic_do_square_eq ra c : quartic_do_square nr ra c = rm (deref ra c) (deref ra c).
  Proof.
    transitivity (quartic_do_mul nr (Other (deref ra c)) (Other (deref ra c)) c).
    - reflexivity.
    - rewrite quartic_do_mul_eq. reflexivity.
  Qed.
  Lemma quartic_mul_eq x y : quartic_mul nr x y = rm x y. Proof. apply quartic_do_mul_eq. Qed.

  Lemma quartic_is_zero_iff (x : quartic K) : quartic_is_zero x = true <-> x = quartic_zero.
  Proof.
    unfold quartic_is_zero. rewrite !andb_true_iff, !feqb_eq. split.
    - intros [[[A B] C] D]. apply quartic_ext; auto.
    - intros ->. repeat split; reflexivity.
  Qed.
  Lemma quartic_eqb_iff (x y : quartic K) : quartic_eqb x y = true <-> x = y.
  Proof.
    unfold quartic_eqb. rewrite !andb_true_iff, !feqb_eq. split.
    - intros [[[A B] C] D]. apply quartic_ext; auto.
    - intros ->. repeat split; reflexivity.
  Qed.
  Lemma quartic_ring : ring_theory quartic_zero quartic_one quartic_add (quartic_mul nr) quartic_sub quartic_negate eq.
  Proof.
    constructor; intros; rewrite ?quartic_mul_eq; unfold rm, quartic_add, quartic_sub, quartic_negate, quartic_zero, quartic_one;
      apply quartic_ext; cbn [r0 r1 r2 r3]; ring.
  Qed.

  (** Frobenius with i = cf 1 1 a square root of -1. *)
  Variable cf : nat -> nat -> K.
  Variable w : K.
  Hypothesis Hw : w * w = - f1.
  Hypothesis Hcf : forall k e, (k <= 3)%nat -> (e <= 3)%nat -> cf k e = w ^ (k * e).

  Definition conj1 (x : quartic K) := Quartic (r0 x) (w * r1 x) (- r2 x) (- (w * r3 x)).
  Definition conj2 (x : quartic K) := Quartic (r0 x) (- r1 x) (r2 x) (- r3 x).
  Definition conj3 (x : quartic K) := Quartic (r0 x) (- (w * r1 x)) (- r2 x) (w * r3 x).
  Lemma frob1 x : quartic_frobenius cf x 1 = conj1 x.
  Proof.
    unfold quartic_frobenius, conj1. cbn [Nat.modulo Nat.divmod fst snd Nat.sub]. rewrite !Hcf by lia. cbn [Nat.mul Nat.add fpow].
    apply quartic_ext; cbn [r0 r1 r2 r3]; ring [Hw].
  Qed.
  Lemma frob2 x : quartic_frobenius cf x 2 = conj2 x.
  Proof.
    unfold quartic_frobenius, conj2. cbn [Nat.modulo Nat.divmod fst snd Nat.sub]. rewrite !Hcf by lia. cbn [Nat.mul Nat.add fpow].
    apply quartic_ext; cbn [r0 r1 r2 r3]; ring [Hw].
  Qed.
  Lemma frob3 x : quartic_frobenius cf x 3 = conj3 x.
  Proof.
    unfold quartic_frobenius, conj3. cbn [Nat.modulo Nat.divmod fst snd Nat.sub]. rewrite !Hcf by lia. cbn [Nat.mul Nat.add fpow].
    apply quartic_ext; cbn [r0 r1 r2 r3]; ring [Hw].
  Qed.

  (** the norm to K, through the intermediate field K(x^2) *)
  Definition nA (x : quartic K) : K := r0 x * r0 x + q * (r2 x * r2 x) - q * ((1 + 1) * (r1 x * r3 x)).
  Definition nB (x : quartic K) : K := (1 + 1) * (r0 x * r2 x) - r1 x * r1 x - q * (r3 x * r3 x).
  Definition rnorm (x : quartic K) : K := nA x * nA x - q * (nB x * nB x).
  Definition rcof (x : quartic K) : quartic K := rm (conj1 x) (rm (conj2 x) (conj3 x)).

  Lemma rcof_spec x : rm x (rcof x) = Quartic (rnorm x) 0 0 0.
  Proof.
    unfold rcof, rm, conj1, conj2, conj3, rnorm, nA, nB. apply quartic_ext; cbn [r0 r1 r2 r3]; ring [Hw].
  Qed.

  Lemma rnorm_nonzero x : non_square q -> x <> quartic_zero -> rnorm x <> 0.
  Proof.
    intros Hq Hx E. destruct x as [a b c d]. unfold rnorm in E.
    (* in the field K(y), y^2 = q: A + B y = 0 *)
    assert (Z : Quad (nA (Quartic a b c d)) (nB (Quartic a b c d)) = quad_zero).
    { destruct (quad_eqb (Quad (nA (Quartic a b c d)) (nB (Quartic a b c d))) quad_zero) eqn:Q.
      - apply quad_eqb_iff in Q. exact Q.
      - exfalso. refine (norm_nonzero K q (Quad _ _) Hq _ E). intros C.
        rewrite C in Q. rewrite (proj2 (quad_eqb_iff K _ _) eq_refl) in Q. discriminate. }
    apply (f_equal q0) in Z as Z0. apply (f_equal q1) in Z as Z1. cbn [q0 q1 quad_zero] in Z0, Z1.
    unfold nA in Z0. unfold nB in Z1. cbn [r0 r1 r2 r3] in Z0, Z1. clear Z E.
    (* (a + c y)^2 = y (b + d y)^2 *)
    destruct (f_dec K (b * b - q * (d * d)) 0) as [ED|ND].
    - assert (Q : Quad b d = quad_zero).
      { destruct (quad_eqb (Quad b d) quad_zero) eqn:Q; [apply quad_eqb_iff in Q; exact Q|].
        exfalso. refine (norm_nonzero K q (Quad b d) Hq _ ED). intros C. rewrite C in Q.
        rewrite (proj2 (quad_eqb_iff K _ _) eq_refl) in Q. discriminate. }
      apply (f_equal q0) in Q as Eb. apply (f_equal q1) in Q as Ed. cbn in Eb, Ed. subst b d.
      assert (A : a * a + q * (c * c) = 0) by (rewrite <- Z0; ring).
      assert (B : (1 + 1) * (a * c) = 0) by (rewrite <- Z1; ring).
      apply fmul_integral in B. destruct B as [B|B]; [exact (N2 B)|].
      apply Hx. apply fmul_integral in B. destruct B as [-> | ->].
      + assert (C : q * (c * c) = 0) by (rewrite <- A; ring). apply fmul_integral in C. destruct C as [C|C].
        * exfalso. apply (Hq 0). rewrite C. ring.
        * apply fmul_integral in C. apply quartic_ext; cbn; tauto.
      + assert (C : a * a = 0) by (rewrite <- A; ring). apply fmul_integral in C. apply quartic_ext; cbn; tauto.
    - (* u + v y = (a + c y) / (b + d y) has square y *)
      set (n := b * b - q * (d * d)) in *.
      set (u := (a * b - q * (c * d)) / n). set (v := (c * b - a * d) / n).
      assert (U : u * u + q * (v * v) = 0).
      { unfold u, v.
        transitivity (((a * a + q * (c * c) - q * ((1 + 1) * (b * d))) * (b * b + q * (d * d))
                      - q * (((1 + 1) * (a * c) - b * b - q * (d * d)) * ((1 + 1) * (b * d)))) / (n * n)).
        - unfold n. field. exact ND.
        - rewrite Z0, Z1. field. exact ND. }
      assert (V : (1 + 1) * (u * v) = 1).
      { unfold u, v.
        transitivity (1 + (((1 + 1) * (a * c) - b * b - q * (d * d)) * (b * b + q * (d * d))
                      - ((a * a + q * (c * c) - q * ((1 + 1) * (b * d))) * ((1 + 1) * (b * d)))) / (n * n)).
        - unfold n. field. exact ND.
        - rewrite Z0, Z1. field. exact ND. }
      assert (Nv : v <> 0). { intros Ev. rewrite Ev in V. apply (f1_neq_0 K). rewrite <- V. ring. }
      apply (Hq (w * u / v)). transitivity ((w * w) * (u * u) / (v * v)); [field; exact Nv|].
      rewrite Hw. assert (W : u * u = - (q * (v * v))).
      { transitivity (u * u + q * (v * v) - q * (v * v)); [ring|]. rewrite U. ring. }
      rewrite W. field. exact Nv.
  Qed.

  Definition rinv (x : quartic K) : quartic K := quartic_mul_base (rcof x) (finv (rnorm x)).
  Lemma rinv_spec x : rnorm x <> 0 -> rm x (rinv x) = quartic_one.
  Proof.
    intros H. pose proof (rcof_spec x) as E. unfold rinv, quartic_mul_base. destruct (rcof x) as [a b c d] eqn:Ec.
    unfold rm in *. cbn [r0 r1 r2 r3] in *.
    apply (f_equal r0) in E as E0. apply (f_equal r1) in E as E1. apply (f_equal r2) in E as E2. apply (f_equal r3) in E as E3.
    cbn [r0 r1 r2 r3] in E0, E1, E2, E3. set (n := rnorm x) in *. clearbody n.
    apply quartic_ext; cbn [r0 r1 r2 r3 quartic_one].
    - transitivity ((r0 x * a + q * (r1 x * d + r2 x * c + r3 x * b)) * finv n); [ring|]. rewrite E0. field. exact H.
    - transitivity ((r0 x * b + r1 x * a + q * (r2 x * d + r3 x * c)) * finv n); [ring|]. rewrite E1. ring.
    - transitivity ((r0 x * c + r1 x * b + r2 x * a + q * (r3 x * d)) * finv n); [ring|]. rewrite E2. ring.
    - transitivity ((r0 x * d + r1 x * c + r2 x * b + r3 x * a) * finv n); [ring|]. rewrite E3. ring.
  Qed.
  Lemma quartic_do_inverse_eq r b x : deref r b = x -> rnorm x <> 0 -> quartic_do_inverse nr cf r b = InvReturns (rinv x).
  Proof.
    intros Ex H. unfold quartic_do_inverse. rewrite Ex.
    assert (Z : quartic_is_zero x = false).
    { apply Bool.not_true_iff_false. rewrite quartic_is_zero_iff. intros E. rewrite E in H. apply H.
      unfold rnorm, nA, nB. cbn [r0 r1 r2 r3 quartic_zero]. ring. }
    rewrite Z, frob1, frob2, frob3. unfold quartic_mul_in_place. rewrite quartic_do_mul_eq, quartic_mul_eq. cbn [deref].
    fold (rcof x). unfold inverse_opt. rewrite Hnr.
    assert (E : q * (0 + r1 x * r3 (rcof x) + r2 x * r2 (rcof x) + r3 x * r1 (rcof x)) + r0 x * r0 (rcof x) = rnorm x).
    { pose proof (f_equal r0 (rcof_spec x)) as E. cbn [r0 rm] in E. rewrite <- E. ring. }
    rewrite E. apply feqb_neq in H. rewrite H. reflexivity.
  Qed.
  Lemma quartic_do_inverse_none r b : deref r b = quartic_zero -> quartic_do_inverse nr cf r b = InvFails.
  Proof. intros E. unfold quartic_do_inverse. rewrite E. rewrite (proj2 (quartic_is_zero_iff _) eq_refl). reflexivity. Qed.
  Lemma quartic_norm_eq x : quartic_norm nr cf x = Some (rnorm x).
  Proof.
    unfold quartic_norm. rewrite frob1, frob2, frob3. unfold quartic_mul_in_place.
    rewrite quartic_do_mul_eq, !quartic_mul_eq. cbn [deref].
    assert (E : rm (conj1 x) (rm (rm (conj2 x) (conj3 x)) x) = Quartic (rnorm x) 0 0 0).
    { rewrite <- rcof_spec. unfold rcof. unfold rm. apply quartic_ext; cbn [r0 r1 r2 r3]; ring. }
    rewrite E. cbn [r0 r1 r2 r3]. rewrite !feqb_refl. reflexivity.
  Qed.
  Hypothesis Hq : non_square q.
  Definition quartic_inv_total (x : quartic K) : quartic K :=
    match quartic_inverse nr cf x with InvReturns y => y | _ => quartic_zero end.
  Lemma quartic_field : field_theory quartic_zero quartic_one quartic_add (quartic_mul nr) quartic_sub quartic_negate
                       (fun x y => quartic_mul nr x (quartic_inv_total y)) quartic_inv_total eq.
  Proof.
    constructor.
    - apply quartic_ring.
    - intros E. apply (f_equal r0) in E. cbn in E. exact (f1_neq_0 K E).
    - reflexivity.
    - intros x Hx. unfold quartic_inv_total, quartic_inverse. pose proof (rnorm_nonzero x Hq Hx) as HN.
      rewrite (quartic_do_inverse_eq (Other x) quartic_zero x eq_refl HN), quartic_mul_eq.
      rewrite <- (rinv_spec x HN). unfold rm. apply quartic_ext; cbn [r0 r1 r2 r3]; ring.
  Qed.
  Definition quartic_fld : fld := {|
    car := quartic K; f0 := quartic_zero; f1 := quartic_one; fadd := quartic_add; fmul := quartic_mul nr; fsub := quartic_sub;
    fopp := quartic_negate; finv := quartic_inv_total; fdiv := fun x y => quartic_mul nr x (quartic_inv_total y);
    feqb := quartic_eqb; fld_theory := quartic_field; feqb_eq := quartic_eqb_iff |}.
End Quart.
