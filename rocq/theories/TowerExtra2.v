(** Sparse multiplications, cyclotomic operations, quartic Frobenius and generated code. *)
From Coq Require Import ZArith List Bool Arith Lia Znumtheory Ring Field Field_theory.
From Coq Require Import ZifyNat.
From Verif Require Import Field Zp ExtFieldModel TowerModel ExtFieldSpec ExtFieldProof QuarticProof FrobProof ExtFieldExtra TowerProof TowerSpec TowerExtra.
Import ListNotations.
Open Scope fld_scope.

Section Sparse.
  Variable K : fld.
  Add Field Ksp : (fld_theory K).
  Variables (xi : K) (H : non_cube xi) (nr : K -> K) (Hnr : forall x, nr x = xi * x).
  Let C : fld := cubic_fld K xi (fun x => xi * x) (fun x => eq_refl) H.
  Let v : C := Cubic 0 1 0.
  Lemma Cmul (x y : cubic K) : @fmul C x y = cm K xi x y. Proof. apply LCmul. Qed.
  Lemma Cadd (x y : cubic K) : @fadd C x y = cubic_add x y. Proof. reflexivity. Qed.
  Ltac fin := unfold fp6_mul_by_01, fp6_mul_by_1, cubic_add, cubic_sub, cubic_mul_base, cm, set_k0, set_k1, set_k2;
    rewrite ?Hnr; cbn [k0 k1 k2]; rewrite ?Hnr; ring.
  Lemma by_1 (x : cubic K) b1 : fp6_mul_by_1 nr x b1 = @fmul C x (Cubic 0 b1 0).
  Proof. rewrite Cmul. apply cubic_ext; fin. Qed.
  Lemma by_01 (x : cubic K) b0 b1 : fp6_mul_by_01 nr x b0 b1 = @fmul C x (Cubic b0 b1 0).
  Proof. rewrite Cmul. apply cubic_ext; fin. Qed.
  Lemma quad_list2 (a b c d : C) : mod_mul 2 v [a; b] [c; d] = [a * c + v * (b * d); a * d + b * c].
  Proof. exact (mod_mul_2 C v (Quad a b) (Quad c d)). Qed.
  Add Field Csp : (fld_theory C).
  Lemma csub (x y : cubic K) : cubic_sub x y = @fsub C x y. Proof. reflexivity. Qed.
  Lemma cadd (x y : cubic K) : cubic_add x y = @fadd C x y. Proof. reflexivity. Qed.
  Lemma cmulb (x : cubic K) b : cubic_mul_base x b = @fmul C x (Cubic b 0 0).
  Proof. apply cubic_base_act. Qed.
  Lemma emb_split a b : (Cubic a b 0 : C) = (Cubic a 0 0 : C) + (Cubic 0 b 0 : C).
  Proof. apply cubic_ext; cbn [k0 k1 k2 fadd C cubic_fld cubic_add]; ring. Qed.
  Variables (nr12 : cubic K -> cubic K) (H12 : forall x, nr12 x = v * x).
  Lemma by_034 (c0 c1 : cubic K) b0 b3 b4 :
    let r := fp12_mul_by_034 nr nr12 (c0, c1) b0 b3 b4 in
    [fst r; snd r] = mod_mul 2 v [c0 : C; c1] [Cubic b0 0 0; Cubic b3 b4 0].
  Proof.
    cbv zeta. unfold fp12_mul_by_034. cbn [fst snd]. rewrite quad_list2, !by_01, !csub, !cadd, cmulb, H12.
    assert (E : (Cubic (b0 + b3) b4 0 : C) = (Cubic b0 0 0 : C) + (Cubic b3 b4 0 : C))
      by (apply cubic_ext; cbn [k0 k1 k2 fadd C cubic_fld cubic_add]; ring).
    rewrite E. apply (@list2_eq C); ring.
  Qed.
  Lemma by_014 (c0 c1 : cubic K) b0 b1 b4 :
    let r := fp12_mul_by_014 nr nr12 (c0, c1) b0 b1 b4 in
    [fst r; snd r] = mod_mul 2 v [c0 : C; c1] [Cubic b0 b1 0; Cubic 0 b4 0].
  Proof.
    cbv zeta. unfold fp12_mul_by_014. cbn [fst snd]. rewrite quad_list2, !by_01, !by_1, !csub, !cadd, H12.
    assert (E : (Cubic b0 (b1 + b4) 0 : C) = (Cubic b0 b1 0 : C) + (Cubic 0 b4 0 : C))
      by (apply cubic_ext; cbn [k0 k1 k2 fadd C cubic_fld cubic_add]; ring).
    rewrite E. apply (@list2_eq C); ring.
  Qed.
  (** the quadratic Fp6 *)
  Lemma q_by_034 (c0 c1 : cubic K) b0 b3 b4 :
    let r := fp6q_mul_by_034 nr (c0, c1) b0 b3 b4 in
    [fst r; snd r] = mod_mul 2 v [c0 : C; c1] [Cubic b0 0 0; Cubic b3 b4 0].
  Proof.
    cbv zeta. unfold fp6q_mul_by_034. cbn [fst snd]. rewrite quad_list2, !Cmul, !Cadd, !Hnr. unfold v.
    apply list2_eq; apply cubic_ext; unfold cm, cubic_add; cbn [k0 k1 k2]; ring.
  Qed.
  Lemma q_by_014 (c0 c1 : cubic K) b0 b1 b4 :
    let r := fp6q_mul_by_014 nr (c0, c1) b0 b1 b4 in
    [fst r; snd r] = mod_mul 2 v [c0 : C; c1] [Cubic b0 b1 0; Cubic 0 b4 0].
  Proof.
    cbv zeta. unfold fp6q_mul_by_014. cbn [fst snd]. rewrite quad_list2, !Cmul, !Cadd, !Hnr. unfold v.
    apply list2_eq; apply cubic_ext; unfold cm, cubic_add; cbn [k0 k1 k2]; ring.
  Qed.
  Lemma shift3 (x : cubic K) : shift_mul_by_non_residue3 nr x = v * x.
  Proof. unfold v. rewrite Cmul. apply cubic_ext; unfold shift_mul_by_non_residue3, cm; cbn [k0 k1 k2]; rewrite ?Hnr; ring. Qed.
End Sparse.

(** Granger-Scott squaring, as polynomial identities with w^2 - w + 1 = 0. *)
Section GS.
  Variable K : fld.
  Add Field Kgs : (fld_theory K).
  Variables (xi : K) (H : non_cube xi) (nr : K -> K) (Hnr : forall x, nr x = xi * x).
  Variables (w : K) (Hw : w * w = w - 1).
  Let C : fld := cubic_fld K xi (fun x => xi * x) (fun x => eq_refl) H.
  Let v : C := Cubic 0 1 0.
  Definition gphi (a : quad C) : quad C :=
    Quad (Cubic (k0 (q0 a)) (k1 (q0 a) * (w * w)) (k2 (q0 a) * (w * w * (w * w))) : C)
         (Cubic (k0 (q1 a) * w) (k1 (q1 a) * (w * w) * w) (k2 (q1 a) * (w * w * (w * w)) * w)).
  Lemma w3 : w * w * w = - f1. Proof. rewrite Hw. transitivity (w * w - w); [ring|]. rewrite Hw. ring. Qed.
  Lemma w4 : w * w * (w * w) = - w. Proof. transitivity (w * w * w * w); [ring|]. rewrite w3. ring. Qed.
  Lemma w5 : w * w * (w * w) * w = 1 - w. Proof. rewrite w4. transitivity (- (w * w)); [ring|]. rewrite Hw. ring. Qed.
  Lemma gphi_eq (a : quad C) : gphi a =
    Quad (Cubic (k0 (q0 a)) (k1 (q0 a) * (w - 1)) (k2 (q0 a) * - w) : C)
         (Cubic (k0 (q1 a) * w) (k1 (q1 a) * - f1) (k2 (q1 a) * (1 - w))).
  Proof.
    unfold gphi. apply quad_ext; cbn [q0 q1]; apply cubic_ext; cbn [k0 k1 k2]; rewrite ?w4.
    - reflexivity.
    - rewrite Hw. reflexivity.
    - reflexivity.
    - reflexivity.
    - transitivity (k1 (q1 a) * (w * w * w)); [ring|]. rewrite w3. reflexivity.
    - transitivity (k2 (q1 a) * - (w * w)); [ring|]. rewrite Hw. ring.
  Qed.
  Lemma gphi2_eq (a : quad C) : gphi (gphi a) =
    Quad (Cubic (k0 (q0 a)) (k1 (q0 a) * - w) (k2 (q0 a) * (w - 1)) : C)
         (Cubic (k0 (q1 a) * (w - 1)) (k1 (q1 a)) (k2 (q1 a) * - w)).
  Proof.
    rewrite !gphi_eq. cbn [q0 q1 k0 k1 k2]. apply quad_ext; cbn [q0 q1]; apply cubic_ext; cbn [k0 k1 k2]; ring [Hw].
  Qed.
  Lemma gs_square (a : quad C) : qm C v a (gphi (gphi a)) = gphi a ->
    let r := fp12_fast_cyclotomic_square nr (q0 a : cubic K, q1 a : cubic K) in
    (Quad (fst r : C) (snd r : C) : quad C) = qm C v a a.
  Proof.
    rewrite gphi2_eq, gphi_eq. destruct a as [[a0 a1 a2] [a3 a4 a5]]. intros E. unfold qm in *. cbn [q0 q1 k0 k1 k2] in *.
    apply (f_equal q0) in E as E0. apply (f_equal q1) in E as E1. clear E. cbn [q0 q1] in E0, E1.
    unfold C in E0, E1. rewrite !LCmul in E0, E1. unfold v in E0, E1.
    cbn [fadd cubic_fld] in E0, E1. unfold cubic_add, cm in E0, E1. cbn [k0 k1 k2] in E0, E1.
    apply (f_equal k0) in E0 as E00. apply (f_equal k1) in E0 as E01. apply (f_equal k2) in E0 as E02. clear E0.
    apply (f_equal k0) in E1 as E10. apply (f_equal k1) in E1 as E11. apply (f_equal k2) in E1 as E12. clear E1.
    cbn [k0 k1 k2] in *. rewrite ?LCmul in E00, E01, E02. unfold cm in E00, E01, E02. cbn [k0 k1 k2] in E00, E01, E02.
    assert (D : forall x y : K, x = y -> x - y = 0) by (intros x y ->; ring).
    apply D in E00, E01, E02, E10, E11, E12.
    unfold fp12_fast_cyclotomic_square, dbl. cbn [fst snd k0 k1 k2]. rewrite !Hnr.
    unfold C, v. rewrite !LCmul. cbn [fadd cubic_fld]. unfold cubic_add, cm. cbn [k0 k1 k2].
    apply quad_ext; cbn [q0 q1]; apply cubic_ext; cbn [k0 k1 k2].
    - match type of E00 with ?z = _ => transitivity (a0 * a0 + xi * (a1 * a2 + a2 * a1) + (0 * (a3 * a3 + xi * (a4 * a5 + a5 * a4)) +
         xi * (1 * (a3 * a5 + a4 * a4 + a5 * a3) + 0 * (a3 * a4 + a4 * a3 + xi * (a5 * a5)))) + (1 + 1) * z) end;
      [ring [Hw] | rewrite E00; ring].
    - match type of E01 with ?z = _ => transitivity (a0 * a1 + a1 * a0 + xi * (a2 * a2) + (a3 * a3 + xi * (a4 * a5 + a5 * a4))
         + (1 + 1) * (- w) * z) end; [ring [Hw] | rewrite E01; ring].
    - match type of E02 with ?z = _ => transitivity (a0 * a2 + a1 * a1 + a2 * a0 + (a3 * a4 + a4 * a3 + xi * (a5 * a5))
         + (1 + 1) * (w - 1) * z) end; [ring [Hw] | rewrite E02; ring].
    - match type of E10 with ?z = _ => transitivity (a0 * a3 + xi * (a1 * a5 + a2 * a4) + (a3 * a0 + xi * (a4 * a2 + a5 * a1))
         + - f1 * (1 + 1) * (1 - w) * z) end; [ring [Hw] | rewrite E10; ring].
    - match type of E11 with ?z = _ => transitivity (a0 * a4 + a1 * a3 + xi * (a2 * a5) + (a3 * a1 + a4 * a0 + xi * (a5 * a2))
         + - f1 * (1 + 1) * (- f1) * z) end; [ring [Hw] | rewrite E11; ring].
    - match type of E12 with ?z = _ => transitivity (a0 * a5 + a1 * a4 + a2 * a3 + (a3 * a2 + a4 * a1 + a5 * a0)
         + - f1 * (1 + 1) * w * z) end; [ring [Hw] | rewrite E12; ring].
  Qed.
End GS.

(** ** The cyclotomic subgroup of Fp12: x^(p^4 - p^2 + 1) = 1 *)
Definition cyclotomic (t : cfg12) (x : FP12 t) : Prop := x ^ (c_p (t_base t) ^ 4 - c_p (t_base t) ^ 2 + 1) = 1.

Section Cyc.
  Variable t : cfg12.
  Let K := FP2 (t_base t).
  Let p := c_p (t_base t).
  Let Hp : prime (Z.of_nat p) := c_prime (t_base t).
  Add Field Kcy : (fld_theory K).
  Add Field Lcy : (fld_theory (FP12 t)).
  Let n := Nat.div (p ^ 2 - 1) 6.
  Let w : K := t_xi t ^ n.
  Lemma sq_n : (p ^ 2 - 1 = 6 * n)%nat.
  Proof.
    destruct (t_sq6 t) as (m & E & _). fold p in E. unfold n. rewrite E. f_equal.
    apply Nat.div_unique_exact; lia.
  Qed.
  Lemma xi_half : t_xi t ^ (3 * n) = - f1.
  Proof.
    pose proof (t_euler t) as H. fold p in H. rewrite sq_n in H. replace (6 * n)%nat with (3 * n * 2)%nat in H by lia.
    rewrite Nat.div_mul in H by lia. exact H.
  Qed.
  Lemma w_cube : w * w * w = - f1.
  Proof.
    pose proof xi_half as H. replace (3 * n)%nat with (n * 3)%nat in H by lia. rewrite fpow_mul in H.
    change (w ^ 3 = - f1) in H. rewrite <- H. cbn [fpow]. ring.
  Qed.
  Lemma w_rel : w * w = w - 1.
  Proof.
    pose proof w_cube as H3. pose proof (t_cubic t) as H2. fold p in H2. rewrite sq_n in H2.
    replace (6 * n)%nat with (n * 2 * 3)%nat in H2 by lia. rewrite Nat.div_mul in H2 by lia. rewrite fpow_mul in H2.
    change (w ^ 2 <> 1) in H2.
    assert (E : (w + 1) * (w * w - w + 1) = 0).
    { transitivity (w * w * w + 1); [ring|]. rewrite H3. ring. }
    apply fmul_integral in E. destruct E as [E|E].
    - exfalso. apply H2. replace w with (- (f1 : K)).
      + cbn [fpow]. ring.
      + transitivity (w + - (w + 1)); [ring|]. rewrite E. ring.
    - transitivity (w * w - w + 1 + (w - 1)); [ring|]. rewrite E. ring.
  Qed.
  Lemma v_w : FP6_v t ^ Nat.div (p ^ 2 - 1) 2 = (Cubic w 0 0 : FP6 t).
  Proof.
    rewrite sq_n. replace (Nat.div (6 * n) 2) with (3 * n)%nat by (apply Nat.div_unique_exact; lia).
    rewrite fpow_mul, v_cube, <- emb6_pow. reflexivity.
  Qed.
  Lemma xi_third : t_xi t ^ Nat.div (p ^ 2 - 1) 3 = w * w.
  Proof.
    rewrite sq_n. replace (Nat.div (6 * n) 3) with (n * 2)%nat by (apply Nat.div_unique_exact; lia).
    rewrite fpow_mul. change (w ^ 2 = w * w). cbn [fpow]. ring.
  Qed.
  Lemma pow_phi (x : quad (FP6 t)) : fpow (x : FP12 t) (p ^ 2) = gphi K (t_xi t) (t_non_cube t) w x.
  Proof.
    pose proof (quad_pow_p (FP6 t) (FP6_v t) (fun x => FP6_v t * x) false (fun x => eq_refl) (v_non_square t) p Hp (fp6_char t) (t_mod2 t) x 2) as E.
    etransitivity; [exact E|]. clear E. rewrite v_w.
    assert (G : forall y : cubic K, fpow (y : FP6 t) (p ^ 2) = (Cubic (k0 y) (k1 y * (w * w)) (k2 y * (w * w * (w * w))) : FP6 t)).
    { intros y. pose proof (cubic_pow_p (FP2 (t_base t)) (t_xi t) (fun x => t_xi t * x) (fun x => eq_refl) (t_non_cube t) p Hp (fp2_char (t_base t)) (t_mod3 t) y 2) as E.
      cbv zeta in E. rewrite xi_third in E. etransitivity; [exact E|]. unfold K. rewrite !(fp2_fin (t_base t)). reflexivity. }
    destruct x as [[a0 a1 a2] [a3 a4 a5]]. rewrite !G. unfold gphi. cbn [q0 q1 k0 k1 k2]. f_equal.
    change (@fmul (FP6 t)) with (@fmul (cubic_fld K (t_xi t) (fun x => t_xi t * x) (fun x => eq_refl) (t_non_cube t))).
    rewrite LCmul. apply cubic_ext; unfold cm; cbn [k0 k1 k2 q1];
      match goal with |- ?a = ?b => change (@eq K a b) end; ring.
  Qed.
  Lemma cyc_phi (x : FP12 t) : cyclotomic t x -> x * (x ^ (p ^ 2)) ^ (p ^ 2) = x ^ (p ^ 2).
  Proof.
    intros H. unfold cyclotomic in H. fold p in H. rewrite (pow_p_compose (FP12 t) p 2 2). change (2 + 2)%nat with 4%nat.
    rewrite <- fpow_S.
    assert (L : (p ^ 2 <= p ^ 4)%nat) by (apply Nat.pow_le_mono_r; [pose proof (prime_ge_2 _ Hp); lia|lia]).
    replace (S (p ^ 4)) with (p ^ 4 - p ^ 2 + 1 + p ^ 2)%nat by lia. rewrite fpow_add, H. ring.
  Qed.
  Lemma fp12_cyclotomic_square (x : quad (FP6 t)) : cyclotomic t x ->
    let r := fp12_fast_cyclotomic_square (fun y : K => t_xi t * y) (q0 x : cubic K, q1 x : cubic K) in
    (Quad (fst r : FP6 t) (snd r : FP6 t) : FP12 t) = (x : FP12 t) * x.
  Proof.
    intros H. pose proof (cyc_phi x H) as E. rewrite !pow_phi in E.
    change (@fmul (FP12 t) x (gphi K (t_xi t) (t_non_cube t) w (gphi K (t_xi t) (t_non_cube t) w x))) with
      (quad_mul (fun y => FP6_v t * y) false x (gphi K (t_xi t) (t_non_cube t) w (gphi K (t_xi t) (t_non_cube t) w x))) in E.
    rewrite (quad_mul_eq (FP6 t) (FP6_v t) _ false (fun x => eq_refl)) in E.
    pose proof (gs_square K (t_xi t) (t_non_cube t) (fun y => t_xi t * y) (fun x => eq_refl) w w_rel x E) as G.
    cbv zeta in *. etransitivity; [exact G|].
    symmetry. apply (quad_mul_eq (FP6 t) (FP6_v t) _ false (fun x => eq_refl)).
  Qed.
  Lemma cyc_norm_one (x : FP12 t) : cyclotomic t x -> x ^ (p ^ 6 + 1) = 1.
  Proof.
    intros H. unfold cyclotomic in H. fold p in H.
    replace (p ^ 6 + 1)%nat with ((p ^ 4 - p ^ 2 + 1) * (p ^ 2 + 1))%nat.
    - rewrite fpow_mul, H. apply fpow_one.
    - assert (L : (p ^ 2 <= p ^ 4)%nat) by (apply Nat.pow_le_mono_r; [pose proof (prime_ge_2 _ Hp); lia|lia]).
      replace (p ^ 6)%nat with (p ^ 2 * p ^ 4)%nat by (rewrite <- Nat.pow_add_r; reflexivity).
      assert (Q : (p ^ 4 = p ^ 2 * p ^ 2)%nat) by (rewrite <- Nat.pow_add_r; reflexivity).
      rewrite Q in L |- *. clear Q. revert L. generalize (p ^ 2)%nat. intros a La. nia.
  Qed.
  Lemma cyc_conj (x : FP12 t) : cyclotomic t x -> x * (quad_conjugate (x : quad (FP6 t)) : FP12 t) = 1.
  Proof.
    intros H. pose proof (cyc_norm_one x H) as E.
    pose proof (quad_norm_one (FP6 t) (FP6_v t) (fun x => FP6_v t * x) false (fun x => eq_refl) (v_non_square t) p Hp (fp6_char t) (t_mod2 t) 6
                  (fp6_fin t) (v_euler t) x E) as G.
    etransitivity; [|exact G]. apply (quad_mul_eq (FP6 t) (FP6_v t) _ false (fun x => eq_refl)).
  Qed.
  Lemma cyc_nz (x : FP12 t) : cyclotomic t x -> x <> 0.
  Proof.
    intros H E. rewrite E in H. unfold cyclotomic in H. rewrite (fpow_0 (FP12 t)) in H by lia.
    apply (f1_neq_0 (FP12 t)). symmetry. exact H.
  Qed.
  Lemma cyc_mul (x y : FP12 t) : cyclotomic t x -> cyclotomic t y -> cyclotomic t (x * y).
  Proof. unfold cyclotomic. intros Hx Hy. rewrite fpow_mul_base, Hx, Hy. ring. Qed.
  Lemma cyc_one : cyclotomic t 1. Proof. apply fpow_one. Qed.
  Lemma cyc_pow (x : FP12 t) k : cyclotomic t x -> cyclotomic t (x ^ k).
  Proof. intros H. induction k; [apply cyc_one|]. rewrite fpow_S. apply cyc_mul; assumption. Qed.
  Lemma cyc_inv (x i : FP12 t) : cyclotomic t x -> x * i = 1 -> cyclotomic t i.
  Proof.
    intros H E. unfold cyclotomic in *.
    transitivity ((x * i) ^ (c_p (t_base t) ^ 4 - c_p (t_base t) ^ 2 + 1)).
    - rewrite fpow_mul_base, H. ring.
    - rewrite E. apply fpow_one.
  Qed.
  Lemma fp12_cyclotomic_inverse (x : quad (FP6 t)) : cyclotomic t x ->
    quad_fast_cyclotomic_inverse x = quad_inverse (fun y => FP6_v t * y) x /\
    exists i, quad_fast_cyclotomic_inverse x = Some i /\ (x : FP12 t) * i = 1.
  Proof.
    intros H. pose proof (cyc_conj x H) as E. pose proof (cyc_nz x H) as NZ.
    assert (Z : quad_is_zero x = false) by (apply Bool.not_true_iff_false; rewrite quad_is_zero_iff; exact NZ).
    unfold quad_fast_cyclotomic_inverse. rewrite Z. split.
    - destruct (quad_inverse_spec (FP6 t) (FP6_v t) (fun y => FP6_v t * y) (fun x => eq_refl) (v_non_square t) x NZ) as (Ei & Em).
      rewrite Ei. f_equal.
      assert (G : forall a b : FP12 t, (x : FP12 t) * a = 1 -> (x : FP12 t) * b = 1 -> a = b).
      { intros a b Ha Hb. transitivity (a * ((x : FP12 t) * b)); [rewrite Hb; ring|].
        transitivity (((x : FP12 t) * a) * b); [ring|]. rewrite Ha. ring. }
      apply (G _ _ E). etransitivity; [|exact Em]. apply (quad_mul_eq (FP6 t) (FP6_v t) _ false (fun x => eq_refl)).
    - eexists. split; [reflexivity|exact E].
  Qed.
End Cyc.
