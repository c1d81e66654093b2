(** Property theorems C01-C08, C12, C13 about BigInt (tachyon/math/base/big_int.h, arithmetics.h). *)
From Coq Require Import ZArith List Bool Lia Znumtheory.
From Verif Require Import BigIntModel BigIntSpec BigIntProof BigIntProof2 PrimeFieldModel PrimeFieldProof MontInvProof BigIntExtra.
Import ListNotations.
Open Scope Z_scope.
Local Ltac ands := cbv zeta; repeat match goal with |- _ /\ _ => split end.

(** C01 *)
Theorem C01_bigint_add_exact : forall n a b, limbs64 n a -> limbs64 n b ->
  let M := 2 ^ (64 * Z.of_nat n) in
  limbs64 n (fst (bi_add_carry a b)) /\
  val64 (fst (bi_add_carry a b)) = (val64 a + val64 b) mod M /\
  snd (bi_add_carry a b) = (if M <=? val64 a + val64 b then 1 else 0).
Proof. exact bi_add_carry_correct. Qed.
Print Assumptions C01_bigint_add_exact.

Theorem C01_bigint_sub_exact : forall n a b, limbs64 n a -> limbs64 n b ->
  let M := 2 ^ (64 * Z.of_nat n) in
  limbs64 n (fst (bi_sub_borrow a b)) /\
  val64 (fst (bi_sub_borrow a b)) = (val64 a - val64 b) mod M /\
  snd (bi_sub_borrow a b) = (if val64 a <? val64 b then 1 else 0).
Proof. exact bi_sub_borrow_correct. Qed.
Print Assumptions C01_bigint_sub_exact.

Example C01_nonvacuous :
  limbs64 2 [2 ^ 64 - 1; 2 ^ 64 - 1] /\ limbs64 2 [1; 0] /\
  bi_add_carry [2 ^ 64 - 1; 2 ^ 64 - 1] [1; 0] = ([0; 0], 1) /\
  bi_sub_borrow [0; 0] [1; 0] = ([2 ^ 64 - 1; 2 ^ 64 - 1], 1) /\
  bi_add_carry [2 ^ 64 - 1; 3] [5; 7] = ([4; 11], 0).
Proof. ands; try (match goal with |- limbs _ _ _ => split; [reflexivity | repeat constructor; lia] end); vm_compute; reflexivity. Qed.

(** C02 *)
Theorem C02_bigint_mul_extend_exact : forall n a b, limbs64 n a -> limbs64 n b ->
  limbs64 (2 * n) (bi_mul_extend a b) /\ val64 (bi_mul_extend a b) = val64 a * val64 b.
Proof. exact bi_mul_extend_correct. Qed.
Print Assumptions C02_bigint_mul_extend_exact.

Theorem C02_bigint_mul_low_half : forall n a b, limbs64 n a -> limbs64 n b ->
  limbs64 n (bi_mul a b) /\ val64 (bi_mul a b) = (val64 a * val64 b) mod 2 ^ (64 * Z.of_nat n).
Proof. exact bi_mul_correct. Qed.
Print Assumptions C02_bigint_mul_low_half.

Example C02_nonvacuous :
  bi_mul_extend [2 ^ 64 - 1; 2 ^ 64 - 1] [2 ^ 64 - 1; 2 ^ 64 - 1] = [1; 0; 2 ^ 64 - 2; 2 ^ 64 - 1].
Proof. vm_compute. reflexivity. Qed.

(** C03 *)
Theorem C03_bigint_divide_euclidean : forall n a d, (0 < n)%nat -> limbs64 n a -> limbs64 n d ->
  (bi_divide a d = None <-> val64 d = 0) /\
  (forall q r, bi_divide a d = Some (q, r) ->
     limbs64 n q /\ limbs64 n r /\
     val64 a = val64 q * val64 d + val64 r /\ 0 <= val64 r < val64 d).
Proof. exact bi_divide_correct. Qed.
Print Assumptions C03_bigint_divide_euclidean.

Example C03_nonvacuous :
  bi_divide [5; 1] [0; 2 ^ 63] = Some ([0; 0], [5; 1]) /\ bi_divide [7; 2 ^ 64 - 1] [3; 2 ^ 63] = Some ([1; 0], [4; 2 ^ 63 - 1])
  /\ bi_divide [7; 1] [0; 0] = None.
Proof. ands; vm_compute; reflexivity. Qed.

(** C04 *)
Theorem C04_bigint_shift_left : forall n a k, limbs64 n a -> 0 <= k ->
  limbs64 n (bi_mul_by_2exp a k) /\
  val64 (bi_mul_by_2exp a k) = (val64 a * 2 ^ k) mod 2 ^ (64 * Z.of_nat n).
Proof. exact bi_mul_by_2exp_correct. Qed.
Print Assumptions C04_bigint_shift_left.

Theorem C04_bigint_shift_right : forall n a k, limbs64 n a -> 0 <= k ->
  limbs64 n (bi_div_by_2exp a k) /\ val64 (bi_div_by_2exp a k) = val64 a / 2 ^ k.
Proof. exact bi_div_by_2exp_correct. Qed.
Print Assumptions C04_bigint_shift_right.

Theorem C04_bigint_mul_by_2 : forall n a, limbs64 n a ->
  let M := 2 ^ (64 * Z.of_nat n) in
  limbs64 n (fst (bi_mul_by_2 a)) /\
  val64 (fst (bi_mul_by_2 a)) = (2 * val64 a) mod M /\
  snd (bi_mul_by_2 a) = (if M <=? 2 * val64 a then 1 else 0).
Proof. exact bi_mul_by_2_correct. Qed.
Print Assumptions C04_bigint_mul_by_2.

Theorem C04_bigint_div_by_2 : forall n a, limbs64 n a ->
  limbs64 n (bi_div_by_2 a) /\ val64 (bi_div_by_2 a) = val64 a / 2.
Proof. exact bi_div_by_2_correct. Qed.
Print Assumptions C04_bigint_div_by_2.

Example C04_nonvacuous :
  bi_mul_by_2exp [2 ^ 63 + 1; 1] 65 = [0; 2] /\ bi_div_by_2exp [0; 6] 65 = [3; 0] /\
  bi_mul_by_2exp [1; 1] 128 = [0; 0] /\ bi_mul_by_2 [0; 2 ^ 63] = ([0; 0], 1).
Proof. ands; vm_compute; reflexivity. Qed.

(** C05 *)
Theorem C05_bigint_comparisons : forall n a b, limbs64 n a -> limbs64 n b ->
  bi_ltb a b = (val64 a <? val64 b) /\ bi_gtb a b = (val64 a >? val64 b) /\
  bi_leb a b = (val64 a <=? val64 b) /\ bi_geb a b = (val64 a >=? val64 b) /\
  bi_eqb a b = (val64 a =? val64 b).
Proof. exact bi_cmp_correct. Qed.
Print Assumptions C05_bigint_comparisons.

Theorem C05_bigint_equal_iff_same_limbs : forall n a b, limbs64 n a -> limbs64 n b ->
  (bi_eqb a b = true <-> a = b).
Proof. exact bi_eqb_iff. Qed.
Print Assumptions C05_bigint_equal_iff_same_limbs.

Example C05_nonvacuous : bi_ltb [5; 1] [4; 2] = true /\ bi_gtb [5; 1] [4; 2] = false /\ bi_eqb [5; 1] [5; 1] = true.
Proof. repeat split. Qed.

(** C06 *)
Theorem C06_bigint_bits_roundtrip : forall n a, limbs64 n a ->
  bits_val (bi_to_bits_le a) = val64 a /\ length (bi_to_bits_le a) = (64 * n)%nat /\
  bi_to_bits_be a = rev (bi_to_bits_le a) /\
  bi_from_bits_le n (bi_to_bits_le a) = a /\ bi_from_bits_be n (bi_to_bits_be a) = a.
Proof. exact bits_roundtrip. Qed.
Print Assumptions C06_bigint_bits_roundtrip.

Theorem C06_bigint_from_bits : forall n bits, (length bits <= 64 * n)%nat ->
  limbs64 n (bi_from_bits_le n bits) /\ val64 (bi_from_bits_le n bits) = bits_val bits /\
  limbs64 n (bi_from_bits_be n bits) /\ val64 (bi_from_bits_be n bits) = bits_val (rev bits).
Proof. exact from_bits_both. Qed.
Print Assumptions C06_bigint_from_bits.

Theorem C06_bigint_bytes_roundtrip : forall n a, limbs64 n a ->
  limbs 8 (8 * n) (bi_to_bytes_le a) /\ val 8 (bi_to_bytes_le a) = val64 a /\
  bi_to_bytes_be a = rev (bi_to_bytes_le a) /\
  bi_from_bytes_le n (bi_to_bytes_le a) = Some a /\ bi_from_bytes_be n (bi_to_bytes_be a) = Some a.
Proof. exact bytes_roundtrip. Qed.
Print Assumptions C06_bigint_bytes_roundtrip.

(** FromBytes reads any container that fits and writes out of bounds ([None]) exactly for longer ones. *)
Theorem C06_bigint_from_bytes_bounds : forall n bytes, Forall (fun x => 0 <= x < 2 ^ 8) bytes ->
  ((length bytes <= 8 * n)%nat ->
   exists a, bi_from_bytes n bytes = Some a /\ limbs64 n a /\ val64 a = val 8 bytes) /\
  ((8 * n < length bytes)%nat -> bi_from_bytes n bytes = None).
Proof. exact from_bytes_correct. Qed.
Print Assumptions C06_bigint_from_bytes_bounds.

Example C06_nonvacuous :
  bi_to_bytes_le [258; 1] = [2; 1; 0; 0; 0; 0; 0; 0; 1; 0; 0; 0; 0; 0; 0; 0] /\
  bi_from_bytes_le 1 [1; 2; 3; 4; 5; 6; 7; 8; 9] = None /\
  firstn 3 (bi_to_bits_le [5; 0]) = [true; false; true].
Proof. ands; vm_compute; reflexivity. Qed.

(** C07: holds for every value except the all-ones one, where the digits are wrong. *)
Theorem C07_to_naf_partial : forall n v, (0 < n)%nat -> limbs64 n v -> val64 v < 2 ^ (64 * Z.of_nat n) - 1 ->
  exists ds, bi_to_naf v = Some ds /\ Forall (fun d => d = -1 \/ d = 0 \/ d = 1) ds /\
    non_adjacent ds /\ digits_val ds = val64 v /\ (length ds <= 64 * n + 1)%nat.
Proof. exact bi_to_naf_correct. Qed.
Print Assumptions C07_to_naf_partial.

Theorem C07_to_naf_refuted : exists n v ds, limbs64 n v /\ bi_to_naf v = Some ds /\ digits_val ds <> val64 v.
Proof. exact naf_refuted. Qed.
Print Assumptions C07_to_naf_refuted.

Theorem C07_to_naf_all_ones_always_wrong : forall n v, (0 < n)%nat -> limbs64 n v ->
  val64 v = 2 ^ (64 * Z.of_nat n) - 1 -> bi_to_naf v = Some [-1].
Proof. exact bi_to_naf_max. Qed.
Print Assumptions C07_to_naf_all_ones_always_wrong.

Example C07_nonvacuous : bi_to_naf [7] = Some [-1; 0; 0; 1] /\ bi_to_naf [11; 0] = Some [-1; 0; -1; 0; 1].
Proof. split; vm_compute; reflexivity. Qed.

(** C08 *)
Theorem C08_montgomery_reduce : forall n m r inv spare, limbs64 (S n) m -> limbs64 (2 * S n) r ->
  (inv * hd 0 m) mod 2 ^ 64 = 2 ^ 64 - 1 ->
  (spare = true -> 2 * val64 m <= 2 ^ (64 * Z.of_nat (S n))) ->
  val64 r < val64 m * 2 ^ (64 * Z.of_nat (S n)) ->
  let out := bi_montgomery_reduce spare r m inv in
  limbs64 (S n) out /\ 0 <= val64 out < val64 m /\
  (val64 out * 2 ^ (64 * Z.of_nat (S n))) mod val64 m = val64 r mod val64 m.
Proof. exact montgomery_reduce_mod. Qed.
Print Assumptions C08_montgomery_reduce.

Theorem C08_from_montgomery : forall n m v inv, limbs64 (S n) m -> limbs64 (S n) v ->
  (inv * hd 0 m) mod 2 ^ 64 = 2 ^ 64 - 1 -> val64 v < val64 m ->
  let out := bi_from_montgomery 64 v m inv in
  limbs64 (S n) out /\ 0 <= val64 out < val64 m /\
  (val64 out * 2 ^ (64 * Z.of_nat (S n))) mod val64 m = val64 v mod val64 m.
Proof. exact from_montgomery_mod. Qed.
Print Assumptions C08_from_montgomery.

(** The constant the reduction needs exists for every odd modulus: Modulus::Inverse computes it. *)
Theorem C08_modulus_inverse : forall w m, 0 < w -> Z.odd (hd 0 m) = true ->
  (modulus_inverse w m * hd 0 m) mod 2 ^ w = 2 ^ w - 1 /\ 0 <= modulus_inverse w m < 2 ^ w.
Proof. exact modulus_inverse_correct. Qed.
Print Assumptions C08_modulus_inverse.

Example C08_nonvacuous :
  let m := [2 ^ 64 - 59; 2 ^ 63 + 5] in let inv := modulus_inverse 64 m in
  (inv * hd 0 m) mod 2 ^ 64 = 2 ^ 64 - 1 /\
  val64 [1; 2; 3; 4] < val64 m * 2 ^ 128 /\ has_spare_bit m = false /\
  (val64 (bi_montgomery_reduce false [1; 2; 3; 4] m inv) * 2 ^ 128 - val64 [1; 2; 3; 4]) mod val64 m = 0.
Proof. ands; vm_compute; reflexivity. Qed.

(** C12 *)
Theorem C12_montgomery_inverse : forall n m spare a r2 fuel,
  limbs64 (S n) m -> Z.odd (val64 m) = true -> 1 < val64 m ->
  (spare = true -> 2 * val64 m <= 2 ^ (64 * Z.of_nat (S n))) ->
  limbs64 (S n) a -> val64 a < val64 m -> limbs64 (S n) r2 -> val64 r2 < val64 m ->
  (128 * S n <= fuel)%nat ->
  (val64 a = 0 -> bi_montgomery_inverse spare fuel a m r2 = Some None) /\
  (rel_prime (val64 a) (val64 m) ->
   exists out, bi_montgomery_inverse spare fuel a m r2 = Some (Some out) /\
     limbs64 (S n) out /\ 0 <= val64 out < val64 m /\
     (val64 a * val64 out) mod val64 m = val64 r2 mod val64 m).
Proof. exact montgomery_inverse_correct. Qed.
Print Assumptions C12_montgomery_inverse.

Example C12_nonvacuous : bi_montgomery_inverse true 128 [3] [13] [9] = Some (Some [3]) /\
  bi_montgomery_inverse false 256 [7; 1] [2 ^ 64 - 59; 2 ^ 63 + 5] [7; 7] =
  Some (Some [16999940616948018128; 5244662530760558795]) /\
  bi_montgomery_inverse true 0 [0] [13] [9] = Some None.
Proof. ands; vm_compute; reflexivity. Qed.

(** C13: the 64-bit fallback reports the complement of the borrow; the 32-bit one is right. *)
Theorem C13_portable_u64_sub_with_borrow_refuted : exists a b c,
  0 <= a < 2 ^ 64 /\ 0 <= b < 2 ^ 64 /\ (c = 0 \/ c = 1) /\
  snd (sub_with_borrow_portable64 a b c) <> (if a <? b + c then 1 else 0).
Proof. exact portable64_refuted. Qed.
Print Assumptions C13_portable_u64_sub_with_borrow_refuted.

Theorem C13_portable_u64_borrow_is_inverted : forall a b c,
  0 <= a < 2 ^ 64 -> 0 <= b < 2 ^ 64 -> 0 <= c <= 1 ->
  sub_with_borrow_portable64 a b c = ((a - b - c) mod 2 ^ 64, if a <? b + c then 0 else 1).
Proof. exact portable64_inverted. Qed.
Print Assumptions C13_portable_u64_borrow_is_inverted.

Theorem C13_portable_u32_sub_with_borrow_partial : forall a b c,
  0 <= a < 2 ^ 32 -> 0 <= b < 2 ^ 32 -> 0 <= c <= 1 ->
  sub_with_borrow_portable32 a b c = ((a - b - c) mod 2 ^ 32, if a <? b + c then 1 else 0).
Proof. exact portable32_correct. Qed.
Print Assumptions C13_portable_u32_sub_with_borrow_partial.
