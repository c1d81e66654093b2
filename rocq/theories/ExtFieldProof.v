(** Proofs about the extension field models. *)
From Coq Require Import List Bool Arith Lia Ring Field Field_theory Ring_theory.
From Verif Require Import Field ExtFieldModel ExtFieldSpec.
Import ListNotations.
Open Scope fld_scope.

Ltac unref := cbn [deref].

Section Quad.
  Variable K : fld.
  Add Field Kf : (fld_theory K).
  Variables (q : K) (nr : K -> K) (pb m1 : bool).
  Hypothesis Hnr : forall x, nr x = q * x.
  Hypothesis Hm1 : m1 = true -> q = - f1.

  Lemma quad_ext (x y : quad K) : q0 x = q0 y -> q1 x = q1 y -> x = y.
  Proof. destruct x, y; cbn. intros -> ->. reflexivity. Qed.

  Lemma sop2 (a b c d : K) : sum_of_products_serial [a; b] [c; d] = a * c + b * d.
  Proof. unfold sum_of_products_serial. cbn [combine fold_left fst snd]. ring. Qed.

  Definition qm (x y : quad K) : quad K := Quad (q0 x * q0 y + q * (q1 x * q1 y)) (q0 x * q1 y + q1 x * q0 y).

  Lemma quad_do_mul_other x y c : quad_do_mul nr pb (Other x) (Other y) c = qm x y.
  Proof.
    unfold quad_do_mul, qm. destruct pb; unref; cbn [set_q0 set_q1 q0 q1]; rewrite ?sop2, ?Hnr; apply quad_ext; cbn [set_q0 set_q1 q0 q1]; ring.
  Qed.
  Lemma quad_mul_eq x y : quad_mul nr pb x y = qm x y.
  Proof. apply quad_do_mul_other. Qed.
  Lemma quad_mul_in_place_other x y : quad_mul_in_place nr pb x (Other y) = qm x y.
  Proof.
    unfold quad_mul_in_place, quad_do_mul, qm. destruct pb; unref; cbn [set_q0 set_q1 q0 q1]; rewrite ?sop2, ?Hnr;
      apply quad_ext; cbn [set_q0 set_q1 q0 q1]; ring.
  Qed.
  Lemma quad_mul_in_place_self x : pb = true -> quad_mul_in_place nr pb x Out = qm x x.
  Proof.
    intros E. unfold quad_mul_in_place, quad_do_mul, qm. rewrite E. unref; cbn [set_q0 set_q1 q0 q1]; rewrite ?sop2, ?Hnr;
      apply quad_ext; cbn [set_q0 set_q1 q0 q1]; ring.
  Qed.
  (** what the tower version computes instead *)
  Lemma quad_mul_in_place_self_tower x : pb = false ->
    quad_mul_in_place nr pb x Out =
    Quad (q0 (qm x x)) ((q0 x + q1 x) * (q0 x + (q0 x + q1 x)) - q0 x * q0 x - q1 x * q1 x).
  Proof.
    intros E. unfold quad_mul_in_place, quad_do_mul, qm. rewrite E. unref; cbn [set_q0 set_q1 q0 q1]; rewrite ?Hnr;
      apply quad_ext; cbn [set_q0 set_q1 q0 q1]; ring.
  Qed.

  Lemma quad_do_square_eq r b : quad_do_square nr m1 r b = qm (deref r b) (deref r b).
  Proof.
    unfold quad_do_square, qm. destruct m1.
    - rewrite (Hm1 eq_refl). destruct r; unref; cbn [set_q0 set_q1 q0 q1]; unfold dbl; apply quad_ext; cbn [set_q0 set_q1 q0 q1]; ring.
    - destruct r; unref; cbn [set_q0 set_q1 q0 q1]; unfold dbl; rewrite !Hnr; apply quad_ext; cbn [set_q0 set_q1 q0 q1]; ring.
  Qed.

  Lemma quad_is_zero_iff (x : quad K) : quad_is_zero x = true <-> x = quad_zero.
  Proof.
    unfold quad_is_zero. rewrite andb_true_iff, !feqb_eq. split.
    - intros [A B]. apply quad_ext; auto.
    - intros ->. split; reflexivity.
  Qed.
  Lemma quad_eqb_iff (x y : quad K) : quad_eqb x y = true <-> x = y.
  Proof.
    unfold quad_eqb. rewrite andb_true_iff, !feqb_eq. split.
    - intros [A B]. apply quad_ext; auto.
    - intros ->. split; reflexivity.
  Qed.

  Lemma norm_nonzero x : non_square q -> x <> quad_zero -> q0 x * q0 x - q * (q1 x * q1 x) <> 0.
  Proof.
    intros Hq Hx E. destruct (f_dec K (q1 x) 0) as [E1|N1].
    - rewrite E1 in E. assert (E0 : q0 x * q0 x = 0) by (rewrite <- E; ring).
      apply fmul_integral in E0. apply Hx. apply quad_ext; cbn; tauto.
    - apply (Hq (q0 x / q1 x)). assert (E0 : q0 x * q0 x = q * (q1 x * q1 x)) by (apply fsub_eq0; exact E).
      transitivity ((q0 x * q0 x) / (q1 x * q1 x)); [field; exact N1|]. rewrite E0. field. exact N1.
  Qed.

  Definition qinv (x : quad K) : quad K :=
    let n := finv (q0 x * q0 x - q * (q1 x * q1 x)) in Quad (q0 x * n) (- (q1 x * n)).

  Lemma quad_do_inverse_eq r b : q0 (deref r b) * q0 (deref r b) - q * (q1 (deref r b) * q1 (deref r b)) <> 0 ->
    quad_do_inverse nr r b = Some (qinv (deref r b)).
  Proof.
    intros H. unfold quad_do_inverse.
    assert (Z : quad_is_zero (deref r b) = false).
    { apply Bool.not_true_iff_false. rewrite quad_is_zero_iff. intros E. rewrite E in H. cbn in H. apply H. ring. }
    rewrite Z. unfold sqr, inverse_opt. rewrite Hnr. apply feqb_neq in H. rewrite H.
    f_equal. unfold qinv. destruct r; unref; cbn [set_q0 set_q1 q0 q1]; reflexivity.
  Qed.
  Lemma quad_do_inverse_none r b : deref r b = quad_zero -> quad_do_inverse nr r b = None.
  Proof. intros E. unfold quad_do_inverse. rewrite E. rewrite (proj2 (quad_is_zero_iff _) eq_refl). reflexivity. Qed.
  Lemma qinv_correct x : q0 x * q0 x - q * (q1 x * q1 x) <> 0 -> qm x (qinv x) = quad_one.
  Proof. intros H. unfold qm, qinv. apply quad_ext; cbn [q0 q1 quad_one]; field; exact H. Qed.

  Lemma quad_conjugate_norm x : qm x (quad_conjugate x) = Quad (quad_norm nr x) 0.
  Proof. unfold qm, quad_conjugate, quad_norm, sqr. rewrite Hnr. apply quad_ext; cbn [set_q0 set_q1 q0 q1]; ring. Qed.

  (** The field. *)
  Definition quad_inv_total (x : quad K) : quad K := match quad_inverse nr x with Some y => y | None => quad_zero end.
  Lemma quad_ring : ring_theory quad_zero quad_one quad_add (quad_mul nr pb) quad_sub quad_negate eq.
  Proof.
    constructor; intros; rewrite ?quad_mul_eq; unfold qm, quad_add, quad_sub, quad_negate, quad_zero, quad_one;
      apply quad_ext; cbn [set_q0 set_q1 q0 q1]; ring.
  Qed.
  Hypothesis Hq : non_square q.
  Lemma quad_inverse_spec x : x <> quad_zero -> quad_inverse nr x = Some (qinv x) /\ qm x (qinv x) = quad_one.
  Proof.
    intros Hx. pose proof (norm_nonzero x Hq Hx) as HN. split; [|apply qinv_correct; exact HN].
    unfold quad_inverse. rewrite quad_do_inverse_eq by exact HN. reflexivity.
  Qed.
  Lemma quad_field : field_theory quad_zero quad_one quad_add (quad_mul nr pb) quad_sub quad_negate
                       (fun x y => quad_mul nr pb x (quad_inv_total y)) quad_inv_total eq.
  Proof.
    constructor.
    - apply quad_ring.
    - intros E. apply (f_equal q0) in E. cbn in E. exact (f1_neq_0 K E).
    - reflexivity.
    - intros x Hx. unfold quad_inv_total. destruct (quad_inverse_spec x Hx) as [E1 E2]. rewrite E1, quad_mul_eq.
      rewrite <- E2. unfold qm. apply quad_ext; cbn [set_q0 set_q1 q0 q1]; ring.
  Qed.
  Definition quad_fld : fld := {|
    car := quad K; f0 := quad_zero; f1 := quad_one; fadd := quad_add; fmul := quad_mul nr pb; fsub := quad_sub;
    fopp := quad_negate; finv := quad_inv_total; fdiv := fun x y => quad_mul nr pb x (quad_inv_total y);
    feqb := quad_eqb; fld_theory := quad_field; feqb_eq := quad_eqb_iff |}.
End Quad.

Section Cub.
  Variable K : fld.
  Add Field Kf2 : (fld_theory K).
  Variables (q : K) (nr : K -> K).
  Hypothesis Hnr : forall x, nr x = q * x.

  Lemma cubic_ext (x y : cubic K) : k0 x = k0 y -> k1 x = k1 y -> k2 x = k2 y -> x = y.
  Proof. destruct x, y; cbn. intros -> -> ->. reflexivity. Qed.

  Definition cm (x y : cubic K) : cubic K :=
    Cubic (k0 x * k0 y + q * (k1 x * k2 y + k2 x * k1 y))
          (k0 x * k1 y + k1 x * k0 y + q * (k2 x * k2 y))
          (k0 x * k2 y + k1 x * k1 y + k2 x * k0 y).

  Lemma cubic_do_mul_eq ra rb c : cubic_do_mul nr ra rb c = cm (deref ra c) (deref rb c).
  Proof.
    unfold cubic_do_mul, cm. destruct ra, rb; unref; cbn [set_k0 set_k1 set_k2 k0 k1 k2]; rewrite !Hnr;
      apply cubic_ext; cbn [set_k0 set_k1 set_k2 k0 k1 k2]; ring.
  Qed.
  Lemma cubic_do_square_eq ra c : cubic_do_square nr ra c = cm (deref ra c) (deref ra c).
  Proof.
    unfold cubic_do_square, cm, dbl, sqr. destruct ra; unref; cbn [set_k0 set_k1 set_k2 k0 k1 k2]; rewrite !Hnr;
      apply cubic_ext; cbn [set_k0 set_k1 set_k2 k0 k1 k2]; ring.
  Qed.
  Lemma cubic_mul_eq x y : cubic_mul nr x y = cm x y. Proof. apply cubic_do_mul_eq. Qed.

  Lemma cubic_is_zero_iff (x : cubic K) : cubic_is_zero x = true <-> x = cubic_zero.
  Proof.
    unfold cubic_is_zero. rewrite !andb_true_iff, !feqb_eq. split.
    - intros [[A B] C]. apply cubic_ext; auto.
    - intros ->. repeat split; reflexivity.
  Qed.
  Lemma cubic_eqb_iff (x y : cubic K) : cubic_eqb x y = true <-> x = y.
  Proof.
    unfold cubic_eqb. rewrite !andb_true_iff, !feqb_eq. split.
    - intros [[A B] C]. apply cubic_ext; auto.
    - intros ->. repeat split; reflexivity.
  Qed.

  Definition cnorm (x : cubic K) : K :=
    k0 x * (k0 x * k0 x - q * (k1 x * k2 x)) +
    q * (k2 x * (q * (k2 x * k2 x) - k0 x * k1 x) + k1 x * (k1 x * k1 x - k0 x * k2 x)).

  Lemma cubic_norm_nonzero x : non_cube q -> x <> cubic_zero -> cnorm x <> 0.
  Proof.
    intros Hq Hx E. destruct x as [a b c]. unfold cnorm in E. cbn [set_k0 set_k1 set_k2 k0 k1 k2] in E.
    assert (HZ : q <> 0) by (intros Z; apply (Hq 0); rewrite Z; ring).
    set (s1 := q * (c * c) - a * b). set (s2 := b * b - a * c).
    assert (I : s1 * s1 * s1 = q * (s2 * s2 * s2)).
    { apply fsub_eq0. unfold s1, s2.
      transitivity (0 * (q * (c * c * c) - b * b * b)); [|ring]. rewrite <- E. ring. }
    destruct (f_dec K s2 0) as [E2|N2].
    - assert (E1 : s1 = 0).
      { rewrite E2 in I. assert (J : s1 * s1 * s1 = 0) by (rewrite I; ring).
        apply fmul_integral in J. destruct J as [J|J]; [apply fmul_integral in J; tauto|exact J]. }
      unfold s1 in E1. unfold s2 in E2. apply (proj1 (fsub_eq0 K _ _)) in E1. apply (proj1 (fsub_eq0 K _ _)) in E2.
      destruct (f_dec K c 0) as [Ec|Nc].
      + subst c. assert (Eb : b = 0).
        { assert (J : b * b = 0) by (rewrite E2; ring). apply fmul_integral in J. tauto. }
        subst b. assert (J : a * a * a = 0) by (rewrite <- E; ring).
        apply Hx. apply cubic_ext; cbn; try reflexivity.
        apply fmul_integral in J. destruct J as [J|J]; [apply fmul_integral in J; tauto|exact J].
      + apply (Hq (b / c)). assert (Ea : a = b * b / c) by (rewrite E2; field; exact Nc).
        rewrite Ea in E1. transitivity ((b * b / c * b) / (c * c)); [field; exact Nc|]. rewrite <- E1. field. exact Nc.
    - apply (Hq (s1 / s2)). transitivity ((s1 * s1 * s1) / (s2 * s2 * s2)); [field; exact N2|]. rewrite I. field. exact N2.
  Qed.

  Definition cinv (x : cubic K) : cubic K :=
    let t := finv (cnorm x) in
    Cubic ((k0 x * k0 x - q * (k1 x * k2 x)) * t) ((q * (k2 x * k2 x) - k0 x * k1 x) * t) ((k1 x * k1 x - k0 x * k2 x) * t).
  Lemma cubic_do_inverse_eq r b : cnorm (deref r b) <> 0 -> cubic_do_inverse nr r b = Some (cinv (deref r b)).
  Proof.
    intros H. unfold cubic_do_inverse.
    assert (Z : cubic_is_zero (deref r b) = false).
    { apply Bool.not_true_iff_false. rewrite cubic_is_zero_iff. intros E. rewrite E in H. apply H.
      unfold cnorm. cbn [k0 k1 k2 cubic_zero]. ring. }
    rewrite Z. unfold sqr, inverse_opt. rewrite !Hnr. fold (cnorm (deref r b)).
    apply feqb_neq in H. rewrite H. reflexivity.
  Qed.
  Lemma cubic_do_inverse_none r b : deref r b = cubic_zero -> cubic_do_inverse nr r b = None.
  Proof. intros E. unfold cubic_do_inverse. rewrite E. rewrite (proj2 (cubic_is_zero_iff _) eq_refl). reflexivity. Qed.
  Lemma cinv_correct x : cnorm x <> 0 -> cm x (cinv x) = cubic_one.
  Proof.
    intros H. unfold cm, cinv, cnorm in *. apply cubic_ext; cbn [k0 k1 k2 cubic_one]; field; exact H.
  Qed.

  Lemma cubic_ring : ring_theory cubic_zero cubic_one cubic_add (cubic_mul nr) cubic_sub cubic_negate eq.
  Proof.
    constructor; intros; rewrite ?cubic_mul_eq; unfold cm, cubic_add, cubic_sub, cubic_negate, cubic_zero, cubic_one;
      apply cubic_ext; cbn [set_k0 set_k1 set_k2 k0 k1 k2]; ring.
  Qed.
  Hypothesis Hq : non_cube q.
  Definition cubic_inv_total (x : cubic K) : cubic K := match cubic_inverse nr x with Some y => y | None => cubic_zero end.
  Lemma cubic_inverse_spec x : x <> cubic_zero -> cubic_inverse nr x = Some (cinv x) /\ cm x (cinv x) = cubic_one.
  Proof.
    intros Hx. pose proof (cubic_norm_nonzero x Hq Hx) as HN. split; [|apply cinv_correct; exact HN].
    unfold cubic_inverse. rewrite cubic_do_inverse_eq by exact HN. reflexivity.
  Qed.
  Lemma cubic_field : field_theory cubic_zero cubic_one cubic_add (cubic_mul nr) cubic_sub cubic_negate
                       (fun x y => cubic_mul nr x (cubic_inv_total y)) cubic_inv_total eq.
  Proof.
    constructor.
    - apply cubic_ring.
    - intros E. apply (f_equal k0) in E. cbn in E. exact (f1_neq_0 K E).
    - reflexivity.
    - intros x Hx. unfold cubic_inv_total. destruct (cubic_inverse_spec x Hx) as [E1 E2]. rewrite E1, cubic_mul_eq.
      rewrite <- E2. unfold cm. apply cubic_ext; cbn [set_k0 set_k1 set_k2 k0 k1 k2]; ring.
  Qed.
  Definition cubic_fld : fld := {|
    car := cubic K; f0 := cubic_zero; f1 := cubic_one; fadd := cubic_add; fmul := cubic_mul nr; fsub := cubic_sub;
    fopp := cubic_negate; finv := cubic_inv_total; fdiv := fun x y => cubic_mul nr x (cubic_inv_total y);
    feqb := cubic_eqb; fld_theory := cubic_field; feqb_eq := cubic_eqb_iff |}.
End Cub.
