(** Property theorems C10, C11 and C67 for the 32-bit prime fields and the extended gcd. *)
From Coq Require Import ZArith List Bool Lia Znumtheory.
From Verif Require Import BigIntModel SemigroupModel SmallFieldModel SmallFieldSpec SmallFieldProof SmallFieldExtra Pocklington.
Import ListNotations.
Open Scope Z_scope.
Local Ltac ands := cbv zeta; repeat match goal with |- _ /\ _ => split end.

(** C10. Every odd modulus below 2^31 (the documented assumption 2m - 2 < 2^32 with a spare bit). *)
Theorem C10_montgomery32_ops : forall p, Z.odd p = true -> 2 < p < 2 ^ 31 ->
  forall a b x y, represents32 p a x -> represents32 p b y ->
  represents32 p (sfm_add p a b) (x + y) /\ represents32 p (sfm_sub p a b) (x - y) /\
  represents32 p (sfm_neg p a) (- x) /\ represents32 p (sfm_mul p a b) (x * y) /\
  represents32 p (sfm_add p a a) (2 * x) /\ represents32 p (sfm_mul p a a) (x * x).
Proof. exact rep_ops. Qed.
Print Assumptions C10_montgomery32_ops.

Theorem C10_montgomery32_conversions : forall p, Z.odd p = true -> 2 < p < 2 ^ 31 ->
  (forall v, 0 <= v < 2 ^ 32 -> represents32 p (sfm_of p v) v) /\
  (forall v, 0 <= v < 2 ^ 64 -> represents32 p (to_mont64 p v) v) /\
  (forall a x, represents32 p a x -> sfm_value p a = x mod p) /\
  (forall v, 0 <= v < p -> sfm_value p (sfm_of p v) = v) /\
  (forall a, 0 <= a < p -> sfm_of p (sfm_value p a) = a) /\
  (forall a b x y, represents32 p a x -> represents32 p b y ->
    (a =? b) = (x mod p =? y mod p) /\ sfm_ltb p a b = (x mod p <? y mod p)).
Proof. exact rep_conv. Qed.
Print Assumptions C10_montgomery32_conversions.

Theorem C10_montgomery32_pow : forall p, Z.odd p = true -> 2 < p < 2 ^ 31 ->
  forall a x e, represents32 p a x -> 0 <= e < 2 ^ 64 ->
  represents32 p (do_pow (sfm_one p) (sfm_mul p) (fun y => sfm_mul p y y) [e] a) (x ^ e).
Proof. exact rep_pow. Qed.
Print Assumptions C10_montgomery32_pow.

Theorem C10_montgomery32_inverse : forall p, Z.odd p = true -> 2 < p < 2 ^ 31 ->
  forall a x, prime p -> represents32 p a x ->
  match sfm_inverse p a with
  | None => x mod p = 0
  | Some i => x mod p <> 0 /\ exists y, represents32 p i y /\ (x * y) mod p = 1
  end.
Proof. exact rep_inverse. Qed.
Print Assumptions C10_montgomery32_inverse.

(** BabyBear and KoalaBear meet the hypotheses; 3 * 5 = 15 and 5^-1 through the Montgomery words. *)
Example C10_nonvacuous :
  (prime baby_bear /\ prime koala_bear) /\
  (Z.odd baby_bear = true /\ (2 <? baby_bear) && (baby_bear <? 2 ^ 31) = true) /\
  (Z.odd koala_bear = true /\ (2 <? koala_bear) && (koala_bear <? 2 ^ 31) = true) /\
  sfm_value baby_bear (sfm_mul baby_bear (sfm_of baby_bear 3) (sfm_of baby_bear 5)) = 15 /\
  sfm_value koala_bear (sfm_sub koala_bear (sfm_of koala_bear 3) (sfm_of koala_bear 5)) = koala_bear - 2 /\
  sfm_mul baby_bear (sfm_of baby_bear 2) (sfm_of baby_bear ((baby_bear + 1) / 2)) = sfm_one baby_bear.
Proof. ands; first [exact baby_bear_prime | exact koala_bear_prime | vm_compute; reflexivity]. Qed.

(** C11. *)
Theorem C11_mersenne31_reduce : forall v, 0 <= v < mersenne31 * 2 ^ 31 -> mersenne31_reduce64 v = v mod mersenne31.
Proof. exact mersenne31_reduce. Qed.
Print Assumptions C11_mersenne31_reduce.

Theorem C11_mersenne31_ops : forall a b, 0 <= a < mersenne31 -> 0 <= b < mersenne31 ->
  sf_add mersenne31 a b = (a + b) mod mersenne31 /\ sf_sub mersenne31 a b = (a - b) mod mersenne31 /\
  sf_neg mersenne31 a = (- a) mod mersenne31 /\ sf_mul mersenne31_reduce64 a b = (a * b) mod mersenne31.
Proof. exact m31_ring. Qed.
Print Assumptions C11_mersenne31_ops.

Theorem C11_mersenne31_inverse : forall a, 0 <= a < mersenne31 ->
  match sf_inverse mersenne31 a with
  | Undefined => False
  | NoInverse => a = 0
  | Inv i => a <> 0 /\ 0 < i < mersenne31 /\ (a * i) mod mersenne31 = 1
  end.
Proof. exact m31_inverse. Qed.
Print Assumptions C11_mersenne31_inverse.

Example C11_nonvacuous :
  sf_mul mersenne31_reduce64 (mersenne31 - 1) (mersenne31 - 1) = 1 /\
  sf_mul mersenne31_reduce64 65536 65536 = 2 /\
  sf_inverse mersenne31 2 = Inv 1073741824 /\ sf_inverse mersenne31 (mersenne31 - 1) = Inv (mersenne31 - 1).
Proof. ands; vm_compute; reflexivity. Qed.

(** C67. The extended gcd terminates, never overflows int64, and returns Bezout coefficients of the gcd. *)
Theorem C67_egcd : forall x y, 0 <= x < 2 ^ 63 -> 0 <= y < 2 ^ 63 ->
  exists s t, egcd x y = Some (s, t, Z.gcd x y) /\ s * x + t * y = Z.gcd x y.
Proof. exact egcd_correct. Qed.
Print Assumptions C67_egcd.

(** The inverse of any non-Montgomery 32-bit field, for every modulus below 2^31, prime or not. *)
Theorem C67_small_field_inverse : forall p, 1 < p < 2 ^ 31 -> forall a, 0 <= a < p ->
  match sf_inverse p a with
  | Undefined => False
  | NoInverse => a = 0 \/ Z.gcd a p <> 1
  | Inv i => 0 < i < p /\ (a * i) mod p = 1
  end.
Proof. exact sf_inverse_spec. Qed.
Print Assumptions C67_small_field_inverse.

(** Worst-case inputs (consecutive Fibonacci numbers) and a composite modulus. *)
Example C67_nonvacuous :
  egcd 7540113804746346429 4660046610375530309 = Some (1779979416004714189, -2880067194370816120, 1) /\
  sf_inverse 12 5 = Inv 5 /\ sf_inverse 12 8 = NoInverse /\ egcd 12 18 = Some (-1, 1, 6).
Proof. ands; vm_compute; reflexivity. Qed.

(** C68. A non-Montgomery small field configured without its own 64-bit reduction multiplies wrongly: the
    default reduction subtracts the modulus at most once. Arithmetic is right exactly when the configured
    reduction is right on every product. *)
Theorem C68_small_field_ops_partial : forall p, 1 < p < 2 ^ 31 -> forall reduce64,
  (forall v, 0 <= v <= (p - 1) * (p - 1) -> reduce64 v = v mod p) ->
  forall a b, 0 <= a < p -> 0 <= b < p ->
  sf_add p a b = (a + b) mod p /\ sf_sub p a b = (a - b) mod p /\ sf_neg p a = (- a) mod p /\
  sf_mul reduce64 a b = (a * b) mod p.
Proof. exact sf_ring. Qed.
Print Assumptions C68_small_field_ops_partial.
Theorem C68_default_reduction_refuted : exists p a b, prime p /\ 1 < p < 2 ^ 31 /\ 0 <= a < p /\ 0 <= b < p /\
  sf_mul (reduce_default p) a b <> (a * b) mod p.
Proof. exact default_reduction_wrong. Qed.
Print Assumptions C68_default_reduction_refuted.
Theorem C68_default_reduction_partial : forall p v, 1 < p -> 0 <= v < 2 * p -> reduce_default p v = v mod p.
Proof. exact default_reduction_small. Qed.
Print Assumptions C68_default_reduction_partial.
(** Moduli of 32 bits are outside the supported range: the sum wraps. *)
Theorem C68_large_modulus_add_refuted : exists p a b, 2 ^ 31 < p < 2 ^ 32 /\ 0 <= a < p /\ 0 <= b < p /\
  sf_add p a b <> (a + b) mod p.
Proof. exact large_modulus_add_wrong. Qed.
Print Assumptions C68_large_modulus_add_refuted.
Example C68_nonvacuous : sf_mul (fun v => v mod 7) 5 6 = 2 /\ sf_mul (reduce_default 7) 5 6 = 23.
Proof. ands; vm_compute; reflexivity. Qed.
