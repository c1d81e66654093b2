(** Property theorems C09 and C12 for multi-limb prime fields (prime_field_fallback.h). *)
From Coq Require Import ZArith List Bool Lia Znumtheory.
From Verif Require Import BigIntModel BigIntSpec PrimeFieldModel PrimeFieldSpec PrimeFieldExtra.
Import ListNotations.
Open Scope Z_scope.
Local Ltac ands := cbv zeta; repeat match goal with |- _ /\ _ => split end.

(** C09. [mk_config m] is the configuration the generator derives from the modulus alone, so the
    theorems quantify over every odd modulus above 1 and every limb count. *)
Theorem C09_prime_field_ops : forall n m,
  limbs64 (S n) m -> 1 < val64 m -> Z.odd (val64 m) = true ->
  let c := mk_config m in let p := val64 m in
  forall a b x y, represents (S n) p a x -> represents (S n) p b y ->
  represents (S n) p (pf_add c a b) (x + y) /\ represents (S n) p (pf_double c a) (2 * x) /\
  represents (S n) p (pf_sub c a b) (x - y) /\ represents (S n) p (pf_neg c a) (- x) /\
  represents (S n) p (pf_mul c a b) (x * y) /\ represents (S n) p (pf_square c a) (x * x).
Proof. exact field_ops. Qed.
Print Assumptions C09_prime_field_ops.

Theorem C09_fast_and_slow_mul : forall n m,
  limbs64 (S n) m -> 1 < val64 m -> Z.odd (val64 m) = true ->
  let c := mk_config m in let p := val64 m in
  forall a b x y, represents (S n) p a x -> represents (S n) p b y ->
  represents (S n) p (do_slow_mul c a b) (x * y) /\
  (can_use_no_carry m = true -> represents (S n) p (do_fast_mul c a b) (x * y)).
Proof. exact field_both_muls. Qed.
Print Assumptions C09_fast_and_slow_mul.

Theorem C09_of_bigint_roundtrip : forall n m,
  limbs64 (S n) m -> 1 < val64 m -> Z.odd (val64 m) = true ->
  let c := mk_config m in let p := val64 m in
  forall v, limbs64 (S n) v -> val64 v < p ->
  represents (S n) p (pf_of_bigint c v) (val64 v) /\ pf_to_bigint c (pf_of_bigint c v) = v.
Proof. exact field_conv. Qed.
Print Assumptions C09_of_bigint_roundtrip.

Theorem C09_to_bigint : forall n m,
  limbs64 (S n) m -> 1 < val64 m -> Z.odd (val64 m) = true ->
  let c := mk_config m in let p := val64 m in
  forall a x, represents (S n) p a x ->
  limbs64 (S n) (pf_to_bigint c a) /\ val64 (pf_to_bigint c a) = x mod p.
Proof. exact field_to_bigint. Qed.
Print Assumptions C09_to_bigint.

Theorem C09_comparisons : forall n m,
  limbs64 (S n) m -> 1 < val64 m -> Z.odd (val64 m) = true ->
  let c := mk_config m in let p := val64 m in
  forall a b x y, represents (S n) p a x -> represents (S n) p b y ->
  pf_eqb a b = (x mod p =? y mod p) /\ pf_ltb c a b = (x mod p <? y mod p) /\
  pf_is_zero a = (x mod p =? 0) /\ pf_is_one c a = (x mod p =? 1).
Proof. exact field_cmp. Qed.
Print Assumptions C09_comparisons.

(** Every residue is represented, by exactly one limb vector. *)
Theorem C09_representation_unique : forall n m,
  limbs64 (S n) m -> 1 < val64 m -> Z.odd (val64 m) = true -> let p := val64 m in
  (forall x, exists a, represents (S n) p a x) /\
  (forall a b x y, represents (S n) p a x -> represents (S n) p b y -> (a = b <-> x mod p = y mod p)).
Proof. exact (fun n m H1 H2 H3 => conj (field_rep_total n m H1 H2 H3) (field_rep_unique n m H1 H2 H3)). Qed.
Print Assumptions C09_representation_unique.

(** bn254 scalar field: 254-bit, spare bits, fast multiplication path. *)
Definition bn254_fr := [4891460686036598785; 2896914383306846353; 13281191951274694749; 3486998266802970665].
(** secp256k1 base field: no spare bit, slow path. *)
Definition secp256k1_fq := [18446744069414583343; 18446744073709551615; 18446744073709551615; 18446744073709551615].
Example C09_nonvacuous :
  (limbs64 4 bn254_fr /\ can_use_no_carry bn254_fr = true /\ Z.odd (val64 bn254_fr) = true) /\
  (limbs64 4 secp256k1_fq /\ has_spare_bit secp256k1_fq = false /\ Z.odd (val64 secp256k1_fq) = true) /\
  (let c := mk_config bn254_fr in
   pf_to_bigint c (pf_mul c (pf_of_bigint c [3; 0; 0; 1]) (pf_of_bigint c [5; 0; 0; 0])) = [15; 0; 0; 5]) /\
  (let c := mk_config secp256k1_fq in
   pf_to_bigint c (pf_add c (pf_of_bigint c [3; 0; 0; 1]) (pf_neg c (pf_of_bigint c [5; 0; 0; 1]))) =
   [18446744069414583341; 18446744073709551615; 18446744073709551615; 18446744073709551615]).
Proof. ands; try (match goal with |- limbs _ _ _ => split; [reflexivity | repeat constructor; lia] end); vm_compute; reflexivity. Qed.

(** C12 for field elements: the Montgomery inverse of an invertible element is the element
    representing its inverse; of zero, failure. The fuel 128 N is therefore never exhausted. *)
Theorem C12_prime_field_montgomery_inverse : forall n m,
  limbs64 (S n) m -> 1 < val64 m -> Z.odd (val64 m) = true ->
  let c := mk_config m in let p := val64 m in
  forall a x, represents (S n) p a x ->
    (x mod p = 0 -> bi_montgomery_inverse (has_spare_bit m) (128 * S n) a m (cfg_r2 c) = Some None) /\
    (rel_prime x p -> exists out y,
       bi_montgomery_inverse (has_spare_bit m) (128 * S n) a m (cfg_r2 c) = Some (Some out) /\
       represents (S n) p out y /\ (x * y) mod p = 1).
Proof. exact field_mont_inverse. Qed.
Print Assumptions C12_prime_field_montgomery_inverse.

Example C12_field_nonvacuous : let c := mk_config bn254_fr in
  option_map (option_map (pf_to_bigint c))
    (bi_montgomery_inverse (has_spare_bit bn254_fr) (128 * 4) (pf_of_bigint c [2; 0; 0; 0]) bn254_fr (cfg_r2 c)) =
  Some (Some (bi_div_by_2 (bi_add bn254_fr [1; 0; 0; 0]))).
Proof. vm_compute. reflexivity. Qed.
