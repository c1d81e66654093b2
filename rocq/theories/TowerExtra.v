(** The statements of TowerProps.v. *)
From Coq Require Import ZArith List Bool Arith Lia Znumtheory Ring Field Field_theory.
From Coq Require Import ZifyNat.
From Verif Require Import Field Zp ExtFieldModel TowerModel ExtFieldSpec ExtFieldProof QuarticProof FrobProof ExtFieldExtra TowerProof TowerSpec.
Import ListNotations.
Open Scope fld_scope.

Lemma prime_pow_e p Hp (x : Zp (Z.of_nat p) Hp) e : x ^ (p ^ e) = x.
Proof. rewrite <- (frob_mod _ p 1 e ltac:(lia) (prime_frob1 p Hp)). rewrite Nat.mod_1_r. apply fpow_1. Qed.

Section F2.
  Variable c : cfg2.
  Let p := c_p c.
  Add Field Fpf : (fld_theory (FP c)).
  Lemma p_half : Nat.div (p ^ 1 - 1) 2 = c_half c.
  Proof. symmetry. apply Nat.div_unique_exact; [lia|]. rewrite Nat.pow_1_r. unfold p. pose proof (c_odd c). lia. Qed.
  Lemma fp2_frob (x : FP2 c) e : fp2_frobenius c x e = x ^ (p ^ e).
  Proof.
    unfold fp2_frobenius. apply (quad_frob_gen (FP c) (c_q c) _ true (fun x => eq_refl) (cfg2_non_square c) p (c_prime c)).
    - apply prime_char.
    - exists (c_half c). exact (c_odd c).
    - intros y n. symmetry. apply prime_pow_e.
    - lia.
    - apply (fp2_fin c).
    - intros n b Hn. destruct n as [|[|n]]; [| |lia].
      + cbn [frob_coeff_fp2 Nat.pow]. reflexivity.
      + cbn [frob_coeff_fp2]. change (FP c) with (Zp (Z.of_nat (c_p c)) (c_prime c)) in b. rewrite p_half.
        change (b * - (f1 : FP c) = b * (c_q c : FP c) ^ c_half c). rewrite (c_euler' c). reflexivity.
  Qed.
End F2.
Lemma fp3_frob (c : cfg3) (x : FP3 c) e : fp3_frobenius c x e = x ^ (h_p c ^ e).
Proof.
  unfold fp3_frobenius. apply (cubic_frob_gen (FPc c) (h_q c) _ (fun x => eq_refl) (cfg3_non_cube c) (h_p c) (h_prime c)).
  - apply prime_char.
  - exists (h_third c). exact (h_mod3 c).
  - intros y n. symmetry. apply prime_pow_e.
  - lia.
  - apply (fp3_fin c).
  - intros n b. rewrite cubic_coeff_gen, fpow_1. reflexivity.
  - intros n b. rewrite cubic_coeff_gen. f_equal. rewrite (fpow_S _ _ 1), fpow_1. reflexivity.
Qed.
Lemma fp4_fin t (x : FP4 t) : x ^ (c_p (f_base t) ^ 4) = x.
Proof.
  apply (quad_fin (FP2 (f_base t)) (FP2_u (f_base t)) _ false (fun x => eq_refl) (u_non_square t) (c_p (f_base t)) (c_prime (f_base t))
           (fp2_char (f_base t))) with (d := 2%nat).
  - exists (c_half (f_base t)). apply (c_odd (f_base t)).
  - apply (fp2_fin (f_base t)).
  - apply u_euler.
Qed.
Section F4.
  Variable t : cfg4.
  Add Field F2f' : (fld_theory (FP2 (f_base t))).
  Add Field F1f' : (fld_theory (FP (f_base t))).
  Lemma quad_base_act (b : FP2 (f_base t)) (a : FP (f_base t)) :
    quad_mul_base (b : quad (FP (f_base t))) a = b * (Quad a 0 : FP2 (f_base t)).
  Proof.
    change (b * (Quad a 0 : FP2 (f_base t))) with (quad_mul (fun x => (c_q (f_base t) : FP (f_base t)) * x) true b (Quad a 0)).
    rewrite (quad_mul_eq (FP (f_base t)) (c_q (f_base t)) _ true (fun x => eq_refl)).
    unfold qm, quad_mul_base. apply quad_ext; cbn [q0 q1]; ring.
  Qed.
  Lemma fp4_frob (x : FP4 t) e : fp4_frobenius t x e = x ^ (c_p (f_base t) ^ e).
  Proof.
    unfold fp4_frobenius.
    apply (quad_frob_gen (FP2 (f_base t)) (FP2_u (f_base t)) _ false (fun x => eq_refl) (u_non_square t) (c_p (f_base t)) (c_prime (f_base t))).
    - apply fp2_char.
    - exists (c_half (f_base t)). apply (c_odd (f_base t)).
    - intros y n. apply fp2_frob.
    - lia.
    - apply fp4_fin.
    - intros n b Hn. rewrite quad_base_act. f_equal.
      apply (quad_coeff_gen (FP2 (f_base t)) (FP2_u (f_base t)) (c_p (f_base t)) (FP (f_base t)) (fun a => Quad a 0 : FP2 (f_base t)) (c_q (f_base t)) 4 2 (f_quarter t)); try lia.
      + intros k. apply emb2_pow.
      + apply (f_mod4 t).
      + apply u_square.
  Qed.
End F4.
Lemma fp6q_fin t (x : FP6q t) : x ^ (h_p (s_base t) ^ 6) = x.
Proof.
  apply (quad_fin (FP3 (s_base t)) (FP3_x (s_base t)) _ false (fun x => eq_refl) (x_non_square t) (h_p (s_base t)) (h_prime (s_base t))
           (fp3_char (s_base t))) with (d := 3%nat).
  - exists (s_half t). apply (s_odd t).
  - apply (fp3_fin (s_base t)).
  - apply x_euler.
Qed.
Section Act3.
  Variable B : fld.
  Add Field Bact : (fld_theory B).
  Variables (z : B) (H : non_cube z).
  Lemma cubic_base_act (b : cubic B) (a : B) :
    cubic_mul_base b a = @fmul (cubic_fld B z (fun x => z * x) (fun x => eq_refl) H) b (Cubic a 0 0).
  Proof.
    rewrite LCmul. unfold cm, cubic_mul_base. apply cubic_ext; cbn [k0 k1 k2]; ring.
  Qed.
End Act3.
Lemma fp6q_frob t (x : FP6q t) e : fp6q_frobenius t x e = x ^ (h_p (s_base t) ^ e).
Proof.
  unfold fp6q_frobenius.
  apply (quad_frob_gen (FP3 (s_base t)) (FP3_x (s_base t)) _ false (fun x => eq_refl) (x_non_square t) (h_p (s_base t)) (h_prime (s_base t))).
  - apply fp3_char.
  - exists (s_half t). apply (s_odd t).
  - intros y n. apply fp3_frob.
  - lia.
  - apply fp6q_fin.
  - intros n b Hn. destruct (s_sixth t) as (s & Es).
    rewrite (cubic_base_act (FPc (s_base t)) (h_q (s_base t)) (cfg3_non_cube (s_base t))).
    f_equal.
    apply (quad_coeff_gen (FP3 (s_base t)) (FP3_x (s_base t)) (h_p (s_base t)) (FPc (s_base t)) (fun a => Cubic a 0 0 : FP3 (s_base t)) (h_q (s_base t)) 6 3 s); try lia.
    + intros k. apply emb3_pow.
    + apply x_cube.
Qed.
Lemma fp6_frob t (x : FP6 t) e : fp6_frobenius t x e = x ^ (c_p (t_base t) ^ e).
Proof.
  unfold fp6_frobenius. apply (cubic_frob_gen (FP2 (t_base t)) (t_xi t) _ (fun x => eq_refl) (t_non_cube t) (c_p (t_base t)) (c_prime (t_base t))).
  - apply fp2_char.
  - apply t_mod3.
  - intros y n. apply fp2_frob.
  - lia.
  - apply (fp6_fin t).
  - intros n b. rewrite cubic_coeff_gen, fpow_1. reflexivity.
  - intros n b. rewrite cubic_coeff_gen. f_equal. rewrite (fpow_S _ _ 1), fpow_1. reflexivity.
Qed.
Lemma fp12_fin t (x : FP12 t) : x ^ (c_p (t_base t) ^ 12) = x.
Proof.
  apply (quad_fin (FP6 t) (FP6_v t) _ false (fun x => eq_refl) (v_non_square t) (c_p (t_base t)) (c_prime (t_base t)) (fp6_char t))
    with (d := 6%nat).
  - apply t_mod2.
  - apply fp6_fin.
  - apply v_euler.
Qed.
Lemma fp12_frob t (x : FP12 t) e : fp12_frobenius t x e = x ^ (c_p (t_base t) ^ e).
Proof.
  unfold fp12_frobenius.
  apply (quad_frob_gen (FP6 t) (FP6_v t) _ false (fun x => eq_refl) (v_non_square t) (c_p (t_base t)) (c_prime (t_base t))).
  - apply fp6_char.
  - apply t_mod2.
  - intros y n. apply fp6_frob.
  - lia.
  - apply fp12_fin.
  - intros n b Hn. rewrite (cubic_base_act (FP2 (t_base t)) (t_xi t) (t_non_cube t)). f_equal.
    apply (quad_coeff_gen (FP6 t) (FP6_v t) (c_p (t_base t)) (FP2 (t_base t)) (fun a => Cubic a 0 0 : FP6 t) (t_xi t) 6 3 (t_sixth t)); try lia.
    + intros k. apply emb6_pow.
    + apply (t_mod6 t).
    + apply v_cube.
Qed.
