(** Properties of the Bernstein-Yang inverter. *)
From Coq Require Import ZArith List Znumtheory.
From Verif Require Import ByModel BySpec ByExtra ByProof2.
Import ListNotations.
Open Scope Z_scope.

(** C249: the 62-bit inverse: for every odd word v, v times the result is 1 modulo 2^62. *)
Theorem C249_inverse_modulo_2_62 (v : Z) : Z.odd v = true -> (v * invert62 v) mod 2 ^ 62 = 1 /\ 0 <= invert62 v < 2 ^ 62.
Proof. exact (invert62_ok v). Qed.
Print Assumptions C249_inverse_modulo_2_62.
Example C249_nonvacuous : Z.odd 123456789 = true /\ invert62 123456789 <> 1 /\ (123456789 * invert62 123456789) mod 2 ^ 62 = 1.
Proof. repeat split; vm_compute; congruence. Qed.

(** C250: the big signed integers: sums, negations and products by an int64_t are exact modulo 2^(62 n) ... *)
Theorem C250_arithmetic (n : nat) (l l' : list Z) (z z' t : Z) : represents n l z -> represents n l' z' -> - 2 ^ 63 < t < 2 ^ 63 ->
  represents n (c_add l l') (z + z') /\ represents n (c_neg l) (- z) /\ represents n (c_mul l t) (z * t).
Proof. exact (arith_ok n l l' z z' t). Qed.
Print Assumptions C250_arithmetic.
(** ... Shift is the floor of the division by 2^62, IsNegative the sign, == equality, Lowest the lowest 62 bits ... *)
Theorem C250_observations (n : nat) (l l' : list Z) (z z' : Z) : (0 < n)%nat -> represents n l z -> represents n l' z' ->
  representable n z -> representable n z' ->
  represents n (c_shift l) (z / 2 ^ 62) /\ is_negative l = (z <? 0) /\ c_eqb l l' = (z =? z') /\ lowest l = z mod 2 ^ 62.
Proof. exact (observe_ok n l l' z z'). Qed.
Print Assumptions C250_observations.
(** ... and Save after Load gives the same BigInt back, when there are enough chunks. *)
Theorem C250_load_save (n N : nat) (l : list Z) : in_base 64 l -> length l = N -> (64 * N < 62 * n)%nat ->
  represents n (load l n) (digits 64 l) /\ save (load l n) N = l.
Proof. exact (load_save n N l). Qed.
Print Assumptions C250_load_save.
Example C250_nonvacuous : represents 3 [2 ^ 62 - 5; 2 ^ 62 - 1; 2 ^ 62 - 1] (-5) /\ representable 3 (-5) /\
  c_mul [2 ^ 62 - 5; 2 ^ 62 - 1; 2 ^ 62 - 1] (-7) = [35; 0; 0] /\ in_base 64 [2 ^ 64 - 1; 17] /\
  load [2 ^ 64 - 1; 17] 4 = [2 ^ 62 - 1; 71; 0; 0].
Proof.
  split; [split; [reflexivity | split; [repeat constructor; vm_compute; congruence | vm_compute; reflexivity]] |].
  split; [split; vm_compute; congruence |]. split; [vm_compute; reflexivity |].
  split; [repeat constructor; vm_compute; congruence | vm_compute; reflexivity].
Qed.

(** C251: Jump, of the lowest chunks of an odd F and of any G, ends and returns a matrix of determinant 2^62 with rows of absolute sum at
    most 2^62 that maps (F, G) to 2^62 times a pair of integers, the first of them odd. *)
Theorem C251_transition_matrix (F G delta : Z) : Z.odd F = true -> Z.abs delta + 62 < 2 ^ 62 ->
  exists delta' t00 t01 t10 t11, jump (F mod 2 ^ 62) (G mod 2 ^ 62) delta = Some (delta', (t00, t01, t10, t11)) /\
  Z.abs delta' <= Z.abs delta + 62 /\
  (exists f', t00 * F + t01 * G = 2 ^ 62 * f' /\ Z.odd f' = true) /\ (exists g', t10 * F + t11 * G = 2 ^ 62 * g') /\
  t00 * t11 - t01 * t10 = 2 ^ 62 /\ Z.abs t00 + Z.abs t01 <= 2 ^ 62 /\ Z.abs t10 + Z.abs t11 <= 2 ^ 62.
Proof. exact (jump_total F G delta). Qed.
Print Assumptions C251_transition_matrix.
Example C251_nonvacuous : Z.odd (2 ^ 70 + 3) = true /\
  match jump ((2 ^ 70 + 3) mod 2 ^ 62) (12345 mod 2 ^ 62) 1 with Some (_, (_, t01, _, _)) => t01 <> 0 | None => False end.
Proof. split; vm_compute; congruence. Qed.

(** C252: for an odd modulus and an adjuster below it, Invert ends on every input; it returns false if and only if the input and the
    modulus have a common divisor, and otherwise the number below the modulus whose product with the input is the adjuster.
    (N below 2^55: the limbs fit into the address space.) *)
Theorem C252_invert (N : nat) (m a x : list Z) :
  length m = N -> length a = N -> length x = N -> in_base 64 m -> in_base 64 a -> in_base 64 x ->
  Z.odd (digits 64 m) = true -> digits 64 a < digits 64 m -> Z.of_nat N < 2 ^ 55 ->
  exists k, forall fuel, (k <= fuel)%nat ->
  match invert fuel N (make N m a) x with
  | None => False
  | Some None => Z.gcd (digits 64 x) (digits 64 m) <> 1
  | Some (Some r) => Z.gcd (digits 64 x) (digits 64 m) = 1 /\ length r = N /\ in_base 64 r /\ digits 64 r < digits 64 m /\
      (digits 64 r * digits 64 x) mod digits 64 m = digits 64 a
  end.
Proof. exact (invert_total N m a x). Qed.
Print Assumptions C252_invert.
Example C252_nonvacuous : in_base 64 [1000003] /\ in_base 64 [2] /\ Z.odd (digits 64 [1000003]) = true /\
  invert 5 1 (make 1 [1000003] [2]) [12345] = Some (Some [551723]) /\ (551723 * 12345) mod 1000003 = 2 /\
  invert 5 1 (make 1 [15] [1]) [12] = Some None.
Proof.
  split; [repeat constructor; vm_compute; congruence |]. split; [repeat constructor; vm_compute; congruence |].
  repeat split; vm_compute; reflexivity.
Qed.

(** C253: Inverse of a prime field element in Montgomery form: nothing for zero, and otherwise the Montgomery form of the inverse. *)
Theorem C253_field_inverse (N : nat) (m r2 x : list Z) (a : Z) :
  length m = N -> length r2 = N -> length x = N -> in_base 64 m -> in_base 64 r2 -> in_base 64 x ->
  prime (digits 64 m) -> digits 64 m <> 2 ->
  digits 64 r2 = (2 ^ (64 * Z.of_nat N) * 2 ^ (64 * Z.of_nat N)) mod digits 64 m ->
  digits 64 x = (a * 2 ^ (64 * Z.of_nat N)) mod digits 64 m -> Z.of_nat N < 2 ^ 55 ->
  exists k, forall fuel, (k <= fuel)%nat ->
  match field_inverse fuel N m r2 x with
  | None => False
  | Some None => a mod digits 64 m = 0
  | Some (Some r) => length r = N /\ in_base 64 r /\
      exists b, (a * b) mod digits 64 m = 1 /\ digits 64 r = (b * 2 ^ (64 * Z.of_nat N)) mod digits 64 m
  end.
Proof. exact (field_inverse_total N m r2 x a). Qed.
Print Assumptions C253_field_inverse.
Example C253_nonvacuous : prime (digits 64 [3]) /\ digits 64 [1] = (2 ^ 64 * 2 ^ 64) mod 3 /\ digits 64 [2] = (5 * 2 ^ 64) mod 3 /\
  field_inverse 3 1 [3] [1] [2] = Some (Some [2]) /\ field_inverse 3 1 [3] [1] [0] = Some None.
Proof. split; [exact prime_3 |]. repeat split; vm_compute; reflexivity. Qed.
