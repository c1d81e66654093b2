(** Property theorems C30, C31, C70-C73: the tower fields.
    A [cfg12] (TowerSpec.v) is any tower Fp2 = Fp(u), Fp6 = Fp2(v), v^3 = xi, Fp12 = Fp6(w), w^2 = v with
    p = 1 mod 6 and Euler's criterion for the non-residues; the other cfg records are the other towers. *)
From Coq Require Import ZArith List Bool Arith Lia Znumtheory Field_theory.
From Verif Require Import Field Zp BigIntModel BigIntSpec ExtFieldModel TowerModel ExtFieldSpec ExtFieldProof QuarticProof ExtFieldExtra
  ExtFieldProps TowerProof TowerSpec TowerExtra TowerExtra2 TowerExtra3 TowerExtra4.
Import ListNotations.
Open Scope fld_scope.
Local Ltac ands := cbv zeta; repeat match goal with |- _ /\ _ => split end.

(** The sparse products equal the full product with the element whose other coefficients are zero.
    [nr] multiplies by xi, [nr12] multiplies by v. *)
Theorem C30_sparse_fp6 : forall (K : fld) (xi : K) (nr : K -> K), (forall x, nr x = xi * x) ->
  forall (x : cubic K) (b0 b1 : K),
  cubic_to_base (fp6_mul_by_1 nr x b1) = mod_mul 3 xi (cubic_to_base x) [0; b1; 0] /\
  cubic_to_base (fp6_mul_by_01 nr x b0 b1) = mod_mul 3 xi (cubic_to_base x) [b0; b1; 0].
Proof. exact sparse_fp6_correct. Qed.
Print Assumptions C30_sparse_fp6.

Theorem C30_sparse_fp12 : forall (K : fld) (xi : K) (H : non_cube xi) (nr : K -> K), (forall x, nr x = xi * x) ->
  let C := cubic_fld K xi (fun x => xi * x) (fun x => eq_refl) H in
  let v : C := Cubic 0 1 0 in
  forall nr12 : cubic K -> cubic K, (forall x : cubic K, nr12 x = v * (x : C)) ->
  forall (c0 c1 : cubic K) (b0 b1 b3 b4 : K),
  (let r := fp12_mul_by_034 nr nr12 (c0, c1) b0 b3 b4 in
   [fst r; snd r] = mod_mul 2 v [c0 : C; c1] [Cubic b0 0 0; Cubic b3 b4 0]) /\
  (let r := fp12_mul_by_014 nr nr12 (c0, c1) b0 b1 b4 in
   [fst r; snd r] = mod_mul 2 v [c0 : C; c1] [Cubic b0 b1 0; Cubic 0 b4 0]).
Proof. exact sparse_fp12_correct. Qed.
Print Assumptions C30_sparse_fp12.

(** The Fp6 that is quadratic over Fp3. *)
Theorem C30_sparse_fp6_quadratic : forall (K : fld) (xi : K) (H : non_cube xi) (nr : K -> K), (forall x, nr x = xi * x) ->
  let C := cubic_fld K xi (fun x => xi * x) (fun x => eq_refl) H in
  let v : C := Cubic 0 1 0 in
  forall (c0 c1 : cubic K) (b0 b1 b3 b4 : K),
  (let r := fp6q_mul_by_034 nr (c0, c1) b0 b3 b4 in
   [fst r; snd r] = mod_mul 2 v [c0 : C; c1] [Cubic b0 0 0; Cubic b3 b4 0]) /\
  (let r := fp6q_mul_by_014 nr (c0, c1) b0 b1 b4 in
   [fst r; snd r] = mod_mul 2 v [c0 : C; c1] [Cubic b0 b1 0; Cubic 0 b4 0]).
Proof. exact sparse_fp6q_correct. Qed.
Print Assumptions C30_sparse_fp6_quadratic.

(** On the cyclotomic subgroup (the solutions of x^(p^4 - p^2 + 1) = 1, TowerExtra2.v [cyclotomic]) the fast square is
    the square and the fast inverse (conjugation) is the inverse. *)
Theorem C31_cyclotomic_square : forall (t : cfg12) (x : FP12 t),
  x ^ (c_p (t_base t) ^ 4 - c_p (t_base t) ^ 2 + 1) = 1 -> fp12_csq t x = x * x.
Proof. exact fp12_csq_correct. Qed.
Print Assumptions C31_cyclotomic_square.

Theorem C31_cyclotomic_inverse : forall (t : cfg12) (x : quad (FP6 t)),
  (x : FP12 t) ^ (c_p (t_base t) ^ 4 - c_p (t_base t) ^ 2 + 1) = 1 ->
  quad_fast_cyclotomic_inverse x = quad_inverse (fun y => FP6_v t * y) x /\
  exists i, quad_fast_cyclotomic_inverse x = Some i /\ (x : FP12 t) * i = 1.
Proof. exact fp12_cyclotomic_inverse. Qed.
Print Assumptions C31_cyclotomic_inverse.

(** FrobeniusMap(e) is x^(p^e), at every level and for every e. *)
Theorem C70_frobenius_fp2 : forall (c : cfg2) (x : FP2 c) (e : nat), fp2_frobenius c x e = x ^ (c_p c ^ e).
Proof. exact fp2_frob. Qed.
Print Assumptions C70_frobenius_fp2.
Theorem C70_frobenius_fp3 : forall (c : cfg3) (x : FP3 c) (e : nat), fp3_frobenius c x e = x ^ (h_p c ^ e).
Proof. exact fp3_frob. Qed.
Print Assumptions C70_frobenius_fp3.
Theorem C70_frobenius_fp4 : forall (t : cfg4) (x : FP4 t) (e : nat), fp4_frobenius t x e = x ^ (c_p (f_base t) ^ e).
Proof. exact fp4_frob. Qed.
Print Assumptions C70_frobenius_fp4.
Theorem C70_frobenius_fp4_quartic : forall (c : cfgq) (x : FPquartic c) (e : nat),
  quartic_frobenius (frob_coeff (g_p c) 4 (g_q c : FPg c)) x e = x ^ (g_p c ^ e).
Proof. exact fpquartic_frob. Qed.
Print Assumptions C70_frobenius_fp4_quartic.
Theorem C70_frobenius_fp6_cubic : forall (t : cfg12) (x : FP6 t) (e : nat), fp6_frobenius t x e = x ^ (c_p (t_base t) ^ e).
Proof. exact fp6_frob. Qed.
Print Assumptions C70_frobenius_fp6_cubic.
Theorem C70_frobenius_fp6_quadratic : forall (t : cfg6) (x : FP6q t) (e : nat), fp6q_frobenius t x e = x ^ (h_p (s_base t) ^ e).
Proof. exact fp6q_frob. Qed.
Print Assumptions C70_frobenius_fp6_quadratic.
Theorem C70_frobenius_fp12 : forall (t : cfg12) (x : FP12 t) (e : nat), fp12_frobenius t x e = x ^ (c_p (t_base t) ^ e).
Proof. exact fp12_frob. Qed.
Print Assumptions C70_frobenius_fp12.

(** Applying it p's order many times is the identity: a consequence at the top level. *)
Theorem C70_frobenius_period : forall (t : cfg12) (x : FP12 t) (e : nat),
  fp12_frobenius t x (e + 12) = fp12_frobenius t x e /\ fp12_frobenius t x 12 = x.
Proof. exact fp12_frob_period. Qed.
Print Assumptions C70_frobenius_period.

(** CyclotomicPow(e) is x^e for every exponent of n limbs but the largest one, for which it is the inverse. *)
Theorem C71_cyclotomic_pow_partial : forall (t : cfg12) (x : FP12 t) (n : nat) (e : list Z), (0 < n)%nat ->
  x ^ (c_p (t_base t) ^ 4 - c_p (t_base t) ^ 2 + 1) = 1 -> limbs64 n e ->
  (val64 e < 2 ^ (64 * Z.of_nat n) - 1)%Z ->
  fp12_cyclotomic_pow t x e = Some (x ^ Z.to_nat (val64 e)).
Proof. exact fp12_cyclotomic_pow_correct. Qed.
Print Assumptions C71_cyclotomic_pow_partial.
Theorem C71_cyclotomic_pow_all_ones : forall (t : cfg12) (x : FP12 t) (n : nat) (e : list Z), (0 < n)%nat ->
  x ^ (c_p (t_base t) ^ 4 - c_p (t_base t) ^ 2 + 1) = 1 -> limbs64 n e ->
  (val64 e = 2 ^ (64 * Z.of_nat n) - 1)%Z ->
  exists i, fp12_cyclotomic_pow t x e = Some i /\ x * i = 1.
Proof. exact fp12_cyclotomic_pow_all_ones. Qed.
Print Assumptions C71_cyclotomic_pow_all_ones.

Theorem C71_cyclotomic_pow_refuted :
  exists (t : cfg12) (x : FP12 t) (e : list Z),
  x ^ (c_p (t_base t) ^ 4 - c_p (t_base t) ^ 2 + 1) = 1 /\ limbs64 1 e /\
  fp12_cyclotomic_pow t x e <> Some (x ^ Z.to_nat (val64 e)).
Proof. exact fp12_cyclotomic_pow_wrong. Qed.
Print Assumptions C71_cyclotomic_pow_refuted.

(** GF(7), u^2 = -1, xi = 1 + 2u (TowerExtra4.v [t7]); x7 has order 13, which divides 7^4 - 7^2 + 1 = 13 * 181. *)
Example C31_nonvacuous :
  x7 ^ (c_p (t_base t7) ^ 4 - c_p (t_base t7) ^ 2 + 1) = 1 /\ x7 <> 1 /\
  coords7 x7 = [4; 4; 4; 4; 6; 3; 6; 4; 2; 6; 2; 3]%Z /\ coords7 (fp12_csq t7 x7) = coords7 (x7 * x7).
Proof.
  split; [exact x7_cyclotomic|]. split; [intros E; apply (f_equal coords7) in E; vm_compute in E; discriminate|].
  ands; vm_compute; reflexivity.
Qed.
(** FrobeniusMap(1) on GF(7^12) moves x7, and agrees with the 7th power. *)
Example C70_nonvacuous : coords7 (fp12_frobenius t7 x7 1) = coords7 (x7 ^ 7) /\ coords7 (fp12_frobenius t7 x7 1) <> coords7 x7.
Proof. split; [vm_compute; reflexivity|intros E; vm_compute in E; discriminate]. Qed.
Example C71_nonvacuous : option_map coords7 (fp12_cyclotomic_pow t7 x7 [11%Z]) = Some (coords7 (x7 ^ 11)).
Proof. vm_compute. reflexivity. Qed.
Example C30_nonvacuous :
  map (zval 7) (cubic_to_base (fp6_mul_by_01 (fun x => g7 2 * x) (Cubic (g7 1) (g7 2) (g7 3)) (g7 4) (g7 5))) = [6; 6; 1]%Z.
Proof. vm_compute. reflexivity. Qed.

(** The generated MulByNonResidue for a non-residue given by a signed 64-bit integer. *)
Theorem C72_generated_multiplication : forall (K : fld) (value : Z) (v : K), (- 2 ^ 63 < value < 2 ^ 63)%Z -> value <> 0%Z ->
  exists ops, generate_fast_multiplication value = Some ops /\ run_fast_multiplication ops v = fint value * v.
Proof. exact fast_mul_correct. Qed.
Print Assumptions C72_generated_multiplication.
(** The hand-written overrides: multiplication by 9 + u and by 1 + u where u^2 = -1, by u where u^2 = q, by v where v^3 = q. *)
Theorem C72_overrides : forall (F : fld) (q : F) (nr : F -> F) (x : quad F) (y : cubic F), (forall a, nr a = q * a) ->
  (q = - f1 -> quad_to_base (bn254_fq6_mul_by_non_residue nr x) = mod_mul 2 (- f1) [fnat 9; 1] (quad_to_base x)) /\
  quad_to_base (bls12_381_fq6_mul_by_non_residue x) = mod_mul 2 (- f1) [1; 1] (quad_to_base x) /\
  quad_to_base (shift_mul_by_non_residue2 nr x) = mod_mul 2 q [0; 1] (quad_to_base x) /\
  cubic_to_base (shift_mul_by_non_residue3 nr y) = mod_mul 3 q [0; 1; 0] (cubic_to_base y).
Proof. exact overrides_correct. Qed.
Print Assumptions C72_overrides.
(** -11 = -(1011b): double, double+add, double+add, negate. *)
Example C72_nonvacuous :
  generate_fast_multiplication (-11) = Some [OpDouble; OpDouble; OpAddV; OpDouble; OpAddV; OpNegate] /\
  zval 13 (run_fast_multiplication [OpDouble; OpDouble; OpAddV; OpDouble; OpAddV; OpNegate] (mkz 13 (prime_check_sound 13 eq_refl) 5 : F13)) = 10%Z /\
  generate_fast_multiplication 1 = Some [] /\ generate_fast_multiplication (-1) = Some [OpNegate].
Proof. ands; vm_compute; reflexivity. Qed.

(** The generated flag kNonResidueIsMinusOne selects the squaring algorithm (C26_square requires it to imply q = -1).  For a
    non-residue in the prime field it is set exactly when the non-residue is -1. *)
Theorem C73_minus_one_flag_partial : forall value : Z, generated_is_minus_one [value] = true <-> value = (-1)%Z.
Proof. exact generated_flag_scalar. Qed.
Print Assumptions C73_minus_one_flag_partial.
(** For a non-residue with more coefficients it is not: the flag is set for -1 + 2u, and the squaring it selects is wrong. *)
Theorem C73_minus_one_flag_refuted :
  exists (z : FP2 c7) (x : quad (FP2 c7)), non_square z /\ z = (Quad (- f1) (1 + 1) : FP2 c7) /\
  generated_is_minus_one [-1; 2]%Z = true /\
  quad_to_base (quad_square (fun a => z * a) (generated_is_minus_one [-1; 2]%Z) x) <> mod_mul 2 z (quad_to_base x) (quad_to_base x).
Proof. exact generated_flag_wrong. Qed.
Print Assumptions C73_minus_one_flag_refuted.

(** The Frobenius coefficients of a quadratic Fp4 are computed from the non-residue of Fp2.  When that is -1 and Fp4 is built
    with a non-residue z outside Fp, FrobeniusMap(1) of w = sqrt z is not w^p (z = 2 + i over GF(2^31 - 1) in the library). *)
Theorem C74_frobenius_fp4_refuted : forall (c : cfg2), c_q c = - f1 -> forall (z : FP2 c) (Hz : non_square z),
  z ^ Nat.div (c_p c ^ 2 - 1) 2 = - f1 ->
  let L := quad_fld (FP2 c) z (fun x => z * x) false (fun x => eq_refl) Hz in
  quad_frobenius (fp2_frobenius c) (fun (b : FP2 c) (a : FP c) => quad_mul_base (b : quad (FP c)) a)
    (frob_coeff (c_p c) 4 (c_q c : FP c) 1) 4 (Quad (0 : FP2 c) 1) 1 <> fpow (Quad (0 : FP2 c) 1 : L) (c_p c ^ 1).
Proof. exact fp4_minus_one_wrong. Qed.
Print Assumptions C74_frobenius_fp4_refuted.
Example C74_nonvacuous : c_q c7 = - f1 /\ z7 ^ Nat.div (c_p c7 ^ 2 - 1) 2 = - f1 /\ non_square z7 /\
  z7 = (Quad (g7 2) (g7 1) : FP2 c7).
Proof. exact z7_facts. Qed.
