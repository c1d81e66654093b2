(** Property theorems C26-C29: the extension fields.  An element is identified with the list of its
    coefficients over the base field; [mod_mul n q] (ExtFieldSpec.v) is multiplication of such lists
    modulo x^n - q.  [nr] is the configuration's MulByNonResidue: multiplication by q. *)
From Coq Require Import ZArith List Bool Arith Lia Znumtheory Field_theory.
From Verif Require Import Field Zp ExtFieldModel TowerModel ExtFieldSpec ExtFieldProof QuarticProof ExtFieldExtra.
Import ListNotations.
Open Scope fld_scope.
Local Ltac ands := cbv zeta; repeat match goal with |- _ /\ _ => split end.

Theorem C26_linear : forall (K : fld) (q : K) (x y : quad K) (e : K),
  quad_to_base (quad_add x y) = [q0 x + q0 y; q1 x + q1 y] /\
  quad_to_base (quad_sub x y) = [q0 x - q0 y; q1 x - q1 y] /\
  quad_to_base (quad_negate x) = [- q0 x; - q1 x] /\
  quad_to_base (quad_double x) = [q0 x + q0 x; q1 x + q1 x] /\
  quad_to_base (quad_mul_base x e) = [q0 x * e; q1 x * e] /\
  quad_to_base (quad_mul_base x e) = mod_mul 2 q (quad_to_base x) [e; 0].
Proof. exact quad_linear. Qed.
Print Assumptions C26_linear.

(** Both multiplication algorithms ([prime_base] selects one). *)
Theorem C26_mul : forall (K : fld) (q : K) (nr : K -> K) (prime_base : bool), (forall x, nr x = q * x) ->
  forall x y : quad K,
  quad_to_base (quad_mul nr prime_base x y) = mod_mul 2 q (quad_to_base x) (quad_to_base y) /\
  quad_mul_in_place nr prime_base x (Other y) = quad_mul nr prime_base x y.
Proof. exact quad_mul_correct. Qed.
Print Assumptions C26_mul.

(** Both squaring algorithms; the one for q = -1 may only be selected when q = -1. *)
Theorem C26_square : forall (K : fld) (q : K) (nr : K -> K) (is_minus_one : bool), (forall x, nr x = q * x) ->
  forall x : quad K, (is_minus_one = true -> q = - f1) ->
  quad_to_base (quad_square nr is_minus_one x) = mod_mul 2 q (quad_to_base x) (quad_to_base x) /\
  quad_square_in_place nr is_minus_one x = quad_square nr is_minus_one x.
Proof. exact quad_square_correct. Qed.
Print Assumptions C26_square.

(** Norm is the product with the conjugate, and the conjugate only negates the second coefficient. *)
Theorem C26_norm : forall (K : fld) (q : K) (nr : K -> K), (forall x, nr x = q * x) -> forall x : quad K,
  mod_mul 2 q (quad_to_base x) (quad_to_base (quad_conjugate x)) = [quad_norm nr x; 0].
Proof. exact quad_norm_correct. Qed.
Print Assumptions C26_norm.

Theorem C26_inverse : forall (K : fld) (q : K) (nr : K -> K), (forall x, nr x = q * x) ->
  forall x : quad K, non_square q ->
  quad_inverse_in_place nr x = quad_inverse nr x /\
  match quad_inverse nr x with
  | None => quad_to_base x = mod_zero 2
  | Some y => quad_to_base x <> mod_zero 2 /\ mod_mul 2 q (quad_to_base x) (quad_to_base y) = mod_one 2
  end.
Proof. exact quad_inverse_correct. Qed.
Print Assumptions C26_inverse.

Theorem C26_is_a_field : forall (K : fld) (q : K) (nr : K -> K) (prime_base : bool), (forall x, nr x = q * x) -> non_square q ->
  field_theory quad_zero quad_one quad_add (quad_mul nr prime_base) quad_sub quad_negate
    (fun x y => quad_mul nr prime_base x (quad_inv_total K nr y)) (quad_inv_total K nr) eq.
Proof. exact quad_field. Qed.
Print Assumptions C26_is_a_field.

(** GF(7^2) with q = -1: (1 + 2i)(3 + 4i) = -5 + 10i = 2 + 3i; 1/(1 + 2i) = (1 - 2i)/5 = 3 + i. *)
Definition g7 (n : Z) : F7 := mkz 7 (prime_check_sound 7 eq_refl) n.
Lemma g7_minus_one_non_square : non_square (g7 6).
Proof.
  intros x. pose proof (zval_range 7 x) as R. intros E. apply (f_equal (zval 7)) in E.
  change (zval 7 x * zval 7 x mod 7 = 6)%Z in E.
  assert (H : forall z, (0 <= z < 7)%Z -> (z * z mod 7 <> 6)%Z).
  { intros z Hz. assert (Cs : z = 0%Z \/ z = 1%Z \/ z = 2%Z \/ z = 3%Z \/ z = 4%Z \/ z = 5%Z \/ z = 6%Z) by lia.
    destruct Cs as [->|[->|[->|[->|[->|[->| ->]]]]]]; discriminate. }
  exact (H _ R E).
Qed.
Example C26_nonvacuous :
  map (zval 7) (quad_to_base (quad_mul (fun x => g7 6 * x) true (Quad (g7 1) (g7 2)) (Quad (g7 3) (g7 4)))) = [2%Z; 3%Z] /\
  map (zval 7) (quad_to_base (quad_square (fun x => g7 6 * x) true (Quad (g7 1) (g7 2)))) = [4%Z; 4%Z] /\
  option_map (fun x : quad F7 => map (zval 7) (quad_to_base x)) (quad_inverse (fun x => g7 6 * x) (Quad (g7 1) (g7 2))) = Some [3%Z; 1%Z].
Proof. ands; vm_compute; reflexivity. Qed.

Theorem C27_linear : forall (K : fld) (q : K) (x y : cubic K) (e : K),
  cubic_to_base (cubic_add x y) = [k0 x + k0 y; k1 x + k1 y; k2 x + k2 y] /\
  cubic_to_base (cubic_sub x y) = [k0 x - k0 y; k1 x - k1 y; k2 x - k2 y] /\
  cubic_to_base (cubic_negate x) = [- k0 x; - k1 x; - k2 x] /\
  cubic_to_base (cubic_double x) = [k0 x + k0 x; k1 x + k1 x; k2 x + k2 x] /\
  cubic_to_base (cubic_mul_base x e) = mod_mul 3 q (cubic_to_base x) [e; 0; 0].
Proof. exact cubic_linear. Qed.
Print Assumptions C27_linear.

Theorem C27_mul : forall (K : fld) (q : K) (nr : K -> K), (forall x, nr x = q * x) -> forall x y : cubic K,
  cubic_to_base (cubic_mul nr x y) = mod_mul 3 q (cubic_to_base x) (cubic_to_base y) /\
  cubic_mul_in_place nr x (Other y) = cubic_mul nr x y.
Proof. exact cubic_mul_correct. Qed.
Print Assumptions C27_mul.

Theorem C27_square : forall (K : fld) (q : K) (nr : K -> K), (forall x, nr x = q * x) -> forall x : cubic K,
  cubic_to_base (cubic_square nr x) = mod_mul 3 q (cubic_to_base x) (cubic_to_base x) /\
  cubic_square_in_place nr x = cubic_square nr x.
Proof. exact cubic_square_correct. Qed.
Print Assumptions C27_square.

Theorem C27_inverse : forall (K : fld) (q : K) (nr : K -> K), (forall x, nr x = q * x) -> forall x : cubic K, non_cube q ->
  cubic_inverse_in_place nr x = cubic_inverse nr x /\
  match cubic_inverse nr x with
  | None => cubic_to_base x = mod_zero 3
  | Some y => cubic_to_base x <> mod_zero 3 /\ mod_mul 3 q (cubic_to_base x) (cubic_to_base y) = mod_one 3
  end.
Proof. exact cubic_inverse_correct. Qed.
Print Assumptions C27_inverse.

Theorem C27_is_a_field : forall (K : fld) (q : K) (nr : K -> K), (forall x, nr x = q * x) -> non_cube q ->
  field_theory cubic_zero cubic_one cubic_add (cubic_mul nr) cubic_sub cubic_negate
    (fun x y => cubic_mul nr x (cubic_inv_total K nr y)) (cubic_inv_total K nr) eq.
Proof. exact cubic_field. Qed.
Print Assumptions C27_is_a_field.

(** GF(7^3) with q = 2. *)
Lemma g7_two_non_cube : non_cube (g7 2).
Proof.
  intros x. pose proof (zval_range 7 x) as R. intros E. apply (f_equal (zval 7)) in E.
  change ((zval 7 x * zval 7 x mod 7) * zval 7 x mod 7 = 2)%Z in E.
  assert (H : forall z, (0 <= z < 7)%Z -> ((z * z mod 7) * z mod 7 <> 2)%Z).
  { intros z Hz. assert (Cs : z = 0%Z \/ z = 1%Z \/ z = 2%Z \/ z = 3%Z \/ z = 4%Z \/ z = 5%Z \/ z = 6%Z) by lia.
    destruct Cs as [->|[->|[->|[->|[->|[->| ->]]]]]]; discriminate. }
  exact (H _ R E).
Qed.
Example C27_nonvacuous :
  map (zval 7) (cubic_to_base (cubic_mul (fun x => g7 2 * x) (Cubic (g7 1) (g7 2) (g7 3)) (Cubic (g7 4) (g7 5) (g7 6)))) = [2%Z; 0%Z; 0%Z] /\
  option_map (fun x : cubic F7 => map (zval 7) (cubic_to_base x)) (cubic_inverse (fun x => g7 2 * x) (Cubic (g7 1) (g7 2) (g7 3))) = Some [2%Z; 6%Z; 3%Z].
Proof. ands; vm_compute; reflexivity. Qed.

Theorem C28_mul_square : forall (K : fld) (q : K) (nr : K -> K), (forall x, nr x = q * x) ->
  (fnat 2 : K) <> 0 -> (fnat 3 : K) <> 0 -> (fnat 5 : K) <> 0 -> forall x y : quartic K,
  quartic_to_base (quartic_mul nr x y) = mod_mul 4 q (quartic_to_base x) (quartic_to_base y) /\
  quartic_mul_in_place nr x (Other y) = quartic_mul nr x y /\
  quartic_to_base (quartic_square nr x) = mod_mul 4 q (quartic_to_base x) (quartic_to_base x) /\
  quartic_square_in_place nr x = quartic_square nr x.
Proof. exact quartic_mul_correct. Qed.
Print Assumptions C28_mul_square.

(** Inverse over a prime field of p = 4m + 1 elements whose non-residue q satisfies Euler's criterion
    q^((p-1)/2) = -1, with the table of Frobenius coefficients q^(k (p^d - 1)/4) of fp4.h. *)
Theorem C28_inverse : forall (p m : nat) (Hp : prime (Z.of_nat p)), (p = 4 * m + 1)%nat -> (5 < p)%nat ->
  forall q : Zp (Z.of_nat p) Hp, q ^ (2 * m) = - f1 -> forall nr, (forall x, nr x = q * x) ->
  forall x : quartic (Zp (Z.of_nat p) Hp),
  quartic_inverse_in_place nr (frob_coeff p 4 q) x = quartic_inverse nr (frob_coeff p 4 q) x /\
  match quartic_inverse nr (frob_coeff p 4 q) x with
  | InvUndefined => False
  | InvFails => quartic_to_base x = mod_zero 4
  | InvReturns y => quartic_to_base x <> mod_zero 4 /\ mod_mul 4 q (quartic_to_base x) (quartic_to_base y) = mod_one 4
  end.
Proof. exact prime_quartic_inverse. Qed.
Print Assumptions C28_inverse.

(** Norm returns the product of the four conjugates, which lies in the base field (its CHECK holds). *)
Theorem C28_norm : forall (p m : nat) (Hp : prime (Z.of_nat p)), (p = 4 * m + 1)%nat -> (5 < p)%nat ->
  forall q : Zp (Z.of_nat p) Hp, q ^ (2 * m) = - f1 -> forall nr, (forall x, nr x = q * x) ->
  forall x : quartic (Zp (Z.of_nat p) Hp),
  exists n, quartic_norm nr (frob_coeff p 4 q) x = Some n /\
  quartic_to_base (quartic_mul nr x (quartic_mul nr (quartic_frobenius (frob_coeff p 4 q) x 1)
    (quartic_mul nr (quartic_frobenius (frob_coeff p 4 q) x 2) (quartic_frobenius (frob_coeff p 4 q) x 3)))) = [n; 0; 0; 0].
Proof. exact prime_quartic_norm. Qed.
Print Assumptions C28_norm.

(** GF(13^4), q = 2: 13 = 4*3 + 1 and 2^6 = 64 = -1 mod 13. *)
Definition g13 (n : Z) : F13 := mkz 13 (prime_check_sound 13 eq_refl) n.
Example C28_nonvacuous :
  g13 2 ^ 6 = - f1 /\
  map (zval 13) (quartic_to_base (quartic_mul (fun x => g13 2 * x) (Quartic (g13 1) (g13 2) (g13 3) (g13 4)) (Quartic (g13 5) (g13 6) (g13 7) (g13 8)))) = [10%Z; 3%Z; 7%Z; 8%Z] /\
  match quartic_inverse (fun x => g13 2 * x) (frob_coeff 13 4 (g13 2)) (Quartic (g13 1) (g13 2) (g13 3) (g13 4)) with
  | InvReturns y => map (zval 13) (mod_mul 4 (g13 2) [g13 1; g13 2; g13 3; g13 4] (quartic_to_base y)) = [1%Z; 0%Z; 0%Z; 0%Z]
  | _ => False
  end.
Proof. ands; [apply zp_eq|..]; vm_compute; reflexivity. Qed.

(** x *= x, x += x and x -= x for the types for which it is right. *)
Theorem C29_self_mul_partial : forall (K : fld) (q : K) (nr : K -> K), (forall x, nr x = q * x) ->
  (forall x : quad K, quad_mul_in_place nr true x Out = quad_mul nr true x x) /\
  (forall x : cubic K, cubic_mul_in_place nr x Out = cubic_mul nr x x) /\
  (forall x : quartic K, quartic_mul_in_place nr x Out = quartic_mul nr x x) /\
  (forall (x : quad K) (y : cubic K),
    quad_add_in_place x Out = quad_add x x /\ quad_sub_in_place x Out = quad_sub x x /\
    cubic_add_in_place y Out = cubic_add y y /\ cubic_sub_in_place y Out = cubic_sub y y).
Proof.
  exact (fun K q nr H => conj (alias_quad_prime K q nr H) (conj (alias_cubic K q nr H) (conj (alias_quartic K nr) (alias_add K)))).
Qed.
Print Assumptions C29_self_mul_partial.

(** For a quadratic extension of a non-prime field (Fp4, Fp6 and Fp12) x *= x is right only when
    c0 = 0 or c0 + c1 = 0, because DoMul overwrites c1 before its last read. *)
Theorem C29_quadratic_tower_self_mul : forall (K : fld) (q : K) (nr : K -> K), (forall x, nr x = q * x) ->
  forall x : quad K,
  quad_mul_in_place nr false x Out = quad_mul nr false x x <-> (q0 x = 0 \/ q0 x + q1 x = 0).
Proof. exact alias_quad_tower. Qed.
Print Assumptions C29_quadratic_tower_self_mul.

(** Witness in GF(7^4) over GF(7^2) with q = 2 + i: x = 1 + y squares to 3 + i + 2y; x *= x leaves c1 = 4. *)
Definition F49 : fld := quad_fld F7 (g7 6) (fun x => g7 6 * x) true (fun x => eq_refl) g7_minus_one_non_square.
Definition g49 (a b : Z) : F49 := Quad (g7 a) (g7 b).
Theorem C29_self_mul_refuted : exists x : quad F49,
  quad_mul_in_place (fun y => g49 2 1 * y) false x Out <> quad_mul (fun y => g49 2 1 * y) false x x.
Proof.
  exists (Quad (g49 1 0) (g49 1 0)). intros E. apply (f_equal (fun z : quad F49 => zval 7 (q0 (q1 z : quad F7)))) in E.
  vm_compute in E. discriminate E.
Qed.
Print Assumptions C29_self_mul_refuted.

(** x *= x.c0() multiplies c1 by the already updated c0. *)
Theorem C29_mul_by_own_coefficient_refuted : exists x : quad F7,
  quad_mul_base_in_place x (inr q0) <> quad_mul_base x (q0 x).
Proof.
  exists (Quad (g7 2) (g7 1)). intros E. apply (f_equal (fun z : quad F7 => zval 7 (q1 z))) in E.
  vm_compute in E. discriminate E.
Qed.
Print Assumptions C29_mul_by_own_coefficient_refuted.
Example C29_nonvacuous :
  map (zval 7) (quad_to_base (quad_mul_in_place (fun x => g7 6 * x) true (Quad (g7 1) (g7 2)) Out)) = [4%Z; 4%Z].
Proof. vm_compute; reflexivity. Qed.
