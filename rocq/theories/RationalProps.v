(** Property theorems C17 for math/base/rational_field.h. The value of a fraction is num/den; a fraction is
    well formed when den is not zero. *)
From Coq Require Import ZArith List Bool Lia.
From Verif Require Import RationalModel RationalProof Field Zp.
Import ListNotations.
Open Scope fld_scope.
Local Ltac ands := cbv zeta; repeat match goal with |- _ /\ _ => split end.

Theorem C17_operations : forall (K : fld) (x y : rational K), den x <> 0 -> den y <> 0 ->
  let value (x : rational K) := num x / den x in
  (den (rf_add K x y) <> 0 /\ value (rf_add K x y) = value x + value y) /\
  (den (rf_sub K x y) <> 0 /\ value (rf_sub K x y) = value x - value y) /\
  (den (rf_mul K x y) <> 0 /\ value (rf_mul K x y) = value x * value y) /\
  (den (rf_neg K x) <> 0 /\ value (rf_neg K x) = - value x) /\
  (den (rf_double K x) <> 0 /\ value (rf_double K x) = value x + value x) /\
  (den (rf_square K x) <> 0 /\ value (rf_square K x) = value x * value x).
Proof. exact rf_ring_ops. Qed.
Print Assumptions C17_operations.

(** The in-place forms agree with the others, also for x += x, x -= x and x *= x. *)
Theorem C17_in_place : forall (K : fld) (x y : rational K) (alias : bool), (alias = true -> y = x) ->
  rf_add_in_place K alias x y = rf_add K x y /\
  rf_sub_in_place K alias x y = rf_sub K x y /\
  rf_mul_in_place K alias x y = rf_mul K x y.
Proof. exact rf_in_place_eq. Qed.
Print Assumptions C17_in_place.

Theorem C17_inverse : forall (K : fld) (x : rational K), den x <> 0 ->
  match rf_inverse K x with
  | None => num x / den x = 0
  | Some i => num x / den x <> 0 /\ den i <> 0 /\ (num x / den x) * (num i / den i) = 1
  end.
Proof. exact rf_inverse_spec. Qed.
Print Assumptions C17_inverse.

Theorem C17_division : forall (K : fld) (x y : rational K), den x <> 0 -> den y <> 0 ->
  match rf_div K x y with
  | None => num y / den y = 0
  | Some q => num y / den y <> 0 /\ den q <> 0 /\ num q / den q = (num x / den x) / (num y / den y)
  end.
Proof. exact rf_div_spec. Qed.
Print Assumptions C17_division.

Theorem C17_equality : forall (K : fld) (x y : rational K), den x <> 0 -> den y <> 0 ->
  (rf_eqb K x y = true <-> num x / den x = num y / den y).
Proof. exact rf_eq. Qed.
Print Assumptions C17_equality.

Theorem C17_is_zero : forall (K : fld) (x : rational K), den x <> 0 ->
  (rf_is_zero K x = true <-> num x / den x = 0).
Proof. exact rf_zero. Qed.
Print Assumptions C17_is_zero.

(** IsOne and IsMinusOne do not decide the value: a numerator of one is enough, whatever the
    denominator. These are the exact conditions they compute. *)
Theorem C17_is_one_partial : forall (K : fld) (x : rational K), den x <> 0 ->
  (rf_is_one K x = true <-> (num x / den x = 1 \/ num x = 1)).
Proof. exact rf_one_iff. Qed.
Print Assumptions C17_is_one_partial.
Theorem C17_is_minus_one_partial : forall (K : fld) (x : rational K), den x <> 0 ->
  (rf_is_minus_one K x = true <-> (num x / den x = - (1) \/ num x = - (1))).
Proof. exact rf_minus_one_iff. Qed.
Print Assumptions C17_is_minus_one_partial.

Local Notation z7 := (mkz 7 (prime_check_sound 7 eq_refl)).
(** 1/2 over GF(7): IsOne, yet its value is 4; 6/2: IsMinusOne, yet its value is 3. *)
Theorem C17_is_one_refuted : exists (K : fld) (x : rational K),
  den x <> 0 /\ rf_is_one K x = true /\ num x / den x <> 1.
Proof. exists F7, (Build_rational (z7 1 : F7) (z7 2 : F7)). ands; vm_compute; congruence. Qed.
Print Assumptions C17_is_one_refuted.
Theorem C17_is_minus_one_refuted : exists (K : fld) (x : rational K),
  den x <> 0 /\ rf_is_minus_one K x = true /\ num x / den x <> - (1).
Proof. exists F7, (Build_rational (z7 6 : F7) (z7 2 : F7)). ands; vm_compute; congruence. Qed.
Print Assumptions C17_is_minus_one_refuted.

(** operator< compares cross products and so is not a function of the two values: 1/1 < 2/1 but not
    2/2 < 4/2 over GF(7) with the order of representatives. *)
Theorem C17_order_refuted : exists x y x' y' : rational F7,
  rf_eqb F7 x x' = true /\ rf_eqb F7 y y' = true /\
  rf_ltb F7 (fun a b => Z.ltb (zval 7 a) (zval 7 b)) x y = true /\
  rf_ltb F7 (fun a b => Z.ltb (zval 7 a) (zval 7 b)) x' y' = false.
Proof.
  exists (Build_rational (z7 1 : F7) (z7 1 : F7)), (Build_rational (z7 2 : F7) (z7 1 : F7)),
         (Build_rational (z7 2 : F7) (z7 2 : F7)), (Build_rational (z7 4 : F7) (z7 2 : F7)).
  ands; vm_compute; reflexivity.
Qed.
Print Assumptions C17_order_refuted.

(** BatchEvaluate with the default coefficient, for every thread count: each entry's value, and zero where
    the denominator is zero (Evaluate aborts there). *)
Theorem C17_batch_evaluate_partial : forall (K : fld) threads (l : list (rational K)) results coeff,
  (0 < threads)%Z -> (2 * Z.of_nat (length l) + threads < 2 ^ 64)%Z -> length l = length results ->
  rf_batch_evaluate K threads l results coeff =
    Some (map (fun x => if feqb (den x) 0 then 0 else num x / den x) l).
Proof. exact rf_batch_spec. Qed.
Print Assumptions C17_batch_evaluate_partial.

(** The coefficient is ignored. *)
Theorem C17_batch_evaluate_coeff_refuted : exists (K : fld) (l : list (rational K)) (coeff : K) (r : K),
  rf_batch_evaluate K 1 l [0] coeff = Some [r] /\
  exists x, l = [x] /\ den x <> 0 /\ r <> coeff * (num x / den x).
Proof.
  exists F7, [Build_rational (z7 3 : F7) (z7 1 : F7)], (z7 2 : F7), (z7 3 : F7).
  split; [vm_compute; reflexivity|]. eexists. split; [reflexivity|]. split; vm_compute; congruence.
Qed.
Print Assumptions C17_batch_evaluate_coeff_refuted.

Example C17_nonvacuous :
  let x := Build_rational (z7 3 : F7) (z7 2 : F7) in let y := Build_rational (z7 5 : F7) (z7 4 : F7) in
  zval 7 (num x / den x) = 5%Z /\ zval 7 (num y / den y) = 3%Z /\
  option_map (zval 7) (rf_evaluate F7 (rf_add F7 x y)) = Some 1%Z /\
  option_map (fun q : rational F7 => zval 7 (num q / den q)) (rf_div F7 x y) = Some 4%Z /\
  option_map (map (zval 7)) (rf_batch_evaluate F7 2 [x; y; x] [0; 0; 0] 1) = Some [5; 3; 5]%Z.
Proof. ands; vm_compute; reflexivity. Qed.
