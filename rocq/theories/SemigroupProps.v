(** Property theorems C14 (Pow and ScalarMul), C15 (successive powers) and C16 (batch inversion). *)
From Coq Require Import ZArith List Bool Lia Permutation.
From Verif Require Import BigIntModel BigIntSpec BitsModel ParallelizeModel SemigroupModel SemigroupSpec.
From Verif Require Import SemigroupProof SemigroupExtra Field Zp.
Import ListNotations.
Open Scope Z_scope.
Local Ltac ands := cbv zeta; repeat match goal with |- _ /\ _ => split end.

(** C14. For every monoid (written multiplicatively for Pow, additively for ScalarMul: only the unit, the
    operation and a correct squaring/doubling are used), element and exponent of any number of
    limbs, Pow is the iterated product. *)
Theorem C14_pow : forall (G : Type) (one : G) (mul : G -> G -> G) (sq : G -> G),
  monoid one mul -> (forall x, sq x = mul x x) ->
  forall n e g, limbs64 n e -> do_pow one mul sq e g = times one mul (Z.to_nat (val64 e)) g.
Proof. exact (fun G one mul sq HM Hsq => do_pow_spec one mul sq HM Hsq). Qed.
Print Assumptions C14_pow.

Theorem C14_const_pow : forall (G : Type) (one : G) (mul : G -> G -> G) (sq : G -> G),
  monoid one mul -> (forall x, sq x = mul x x) ->
  forall p g, 0 <= p < 2 ^ 32 -> const_pow one mul sq p g = times one mul (Z.to_nat p) g.
Proof. exact (fun G one mul sq HM Hsq => const_pow_spec one mul sq HM Hsq). Qed.
Print Assumptions C14_const_pow.

Theorem C14_exp_pow_of_two : forall (G : Type) (one : G) (mul : G -> G -> G) (sq : G -> G),
  monoid one mul -> (forall x, sq x = mul x x) ->
  forall k g, exp_pow_of_two sq k g = times one mul (2 ^ k) g.
Proof. exact (fun G one mul sq HM Hsq => exp_pow_of_two_spec one mul sq HM Hsq). Qed.
Print Assumptions C14_exp_pow_of_two.

(** PowWithTable over the table x^(2^i), i < m: succeeds with the power exactly when the exponent fits in
    m bits, otherwise it fails. *)
Theorem C14_pow_with_table : forall (G : Type) (one : G) (mul : G -> G -> G) (sq : G -> G) n e g m,
  monoid one mul -> (forall x, sq x = mul x x) -> limbs64 n e ->
  pow_with_table one mul (map (fun i => times one mul (2 ^ i) g) (seq 0 m)) e =
    if val64 e <? 2 ^ Z.of_nat m then Some (do_pow one mul sq e g) else None.
Proof. exact pow_table_enough. Qed.
Print Assumptions C14_pow_with_table.

(** Horner-style linear combinations of a list of values by powers of r, in both directions and in
    place (which needs a non-empty list). *)
Theorem C14_linear_combination : forall (K : fld) (r : K) (values : list K),
  linear_combination_forward f0 fadd (fun x => fmul x r) values =
    fsum (map (fun i => fmul (nth i values f0) (fpow r (length values - 1 - i))) (seq 0 (length values))) /\
  linear_combination_backward f0 fadd (fun x => fmul x r) values =
    fsum (map (fun i => fmul (nth i values f0) (fpow r i)) (seq 0 (length values))).
Proof. exact (fun K r values => conj (lc_forward K r values) (lc_backward K r values)). Qed.
Print Assumptions C14_linear_combination.

Theorem C14_linear_combination_in_place : forall (K : fld) (r : K) forward values,
  linear_combination_in_place fadd (fun x => fmul x r) forward values =
  if Nat.eqb (length values) 0 then None
  else Some (if forward then linear_combination_forward f0 fadd (fun x => fmul x r) values
             else linear_combination_backward f0 fadd (fun x => fmul x r) values).
Proof. exact lc_in_place. Qed.
Print Assumptions C14_linear_combination_in_place.

(** MultiScalarMul on several scalars and bases, several scalars and one base, one scalar and several bases: each output
    is its product, and the call is refused exactly when the sizes differ or are zero. *)
Theorem C14_multi_scalar_mul : forall (G S : Type) (smul : S -> G -> G) (scalars : list S) (bases outputs : list G) (s : S) (b : G),
  (match multi_scalar_mul_msmb smul scalars bases outputs with
   | Some r => length scalars = length bases /\ length scalars = length outputs /\ (0 < length scalars)%nat /\ length r = length scalars /\
               forall i x y, nth_error scalars i = Some x -> nth_error bases i = Some y -> nth_error r i = Some (smul x y)
   | None => length scalars <> length bases \/ length scalars <> length outputs \/ length scalars = 0%nat
   end) /\
  (match multi_scalar_mul_mssb smul scalars b outputs with
   | Some r => length scalars = length outputs /\ (0 < length scalars)%nat /\ length r = length scalars /\
               forall i x, nth_error scalars i = Some x -> nth_error r i = Some (smul x b)
   | None => length scalars <> length outputs \/ length scalars = 0%nat
   end) /\
  (match multi_scalar_mul_ssmb smul s bases outputs with
   | Some r => length bases = length outputs /\ (0 < length bases)%nat /\ length r = length bases /\
               forall i y, nth_error bases i = Some y -> nth_error r i = Some (smul s y)
   | None => length bases <> length outputs \/ length bases = 0%nat
   end).
Proof. exact (fun G S => @multi_scalar G S). Qed.
Print Assumptions C14_multi_scalar_mul.

Example C14_nonvacuous :
  monoid 1 Z.mul /\ limbs64 2 [5; 0] /\
  do_pow 1 Z.mul (fun x => x * x) [5; 0] 3 = 243 /\
  times 1 Z.mul 5 3 = 243 /\
  const_pow 1 Z.mul (fun x => x * x) 7 3 = 2187 /\
  pow_with_table 1 Z.mul (map (fun i => times 1 Z.mul (2 ^ i) 3) (seq 0 3)) [5] = Some 243 /\
  pow_with_table 1 Z.mul (map (fun i => times 1 Z.mul (2 ^ i) 3) (seq 0 2)) [5] = None.
Proof.
  ands; [constructor; intros; ring| |vm_compute; reflexivity ..].
  split; [reflexivity|]. repeat constructor; vm_compute; congruence.
Qed.

(** C15. For every thread count the result is [c; c g; c g^2; ...]. *)
Theorem C15_successive_powers : forall (G : Type) (one : G) (mul : G -> G -> G) (sq : G -> G) (is_one : G -> bool),
  monoid one mul -> (forall x, sq x = mul x x) -> (forall x, is_one x = true <-> x = one) ->
  (forall x y, mul x y = mul y x) ->
  forall threads zero size g c, 0 < threads -> 2 * Z.of_nat size + threads < 2 ^ 64 ->
  get_successive_powers one mul sq is_one threads zero size g c =
    Some (map (fun i => mul c (times one mul i g)) (seq 0 size)).
Proof. exact (fun G one mul sq is_one HM Hsq Hone Hc => successive_powers_spec one mul sq HM Hsq is_one Hone Hc). Qed.
Print Assumptions C15_successive_powers.

Theorem C15_successive_scalar_muls : forall (G : Type) (one : G) (mul : G -> G -> G) (sq : G -> G),
  monoid one mul -> (forall x, sq x = mul x x) ->
  forall threads zero size g, 0 < threads -> 2 * Z.of_nat size + threads < 2 ^ 64 ->
  get_successive_scalar_muls one mul sq threads zero size g = Some (map (fun i => times one mul i g) (seq 0 size)).
Proof. exact (fun G one mul sq HM Hsq => successive_scalar_muls_spec one mul sq HM Hsq). Qed.
Print Assumptions C15_successive_scalar_muls.

(** The bit-reversed variants, for the sizes 2^k with k > 0: the parallel writes in any order, and the
    serial loop, produce the same list, holding c g^i at the position i reversed in k bits. *)
Theorem C15_bit_reversed_partial : forall (G : Type) (one : G) (mul : G -> G -> G) (sq : G -> G) is_one k g c threads zero,
  monoid one mul -> (forall x y, mul x y = mul y x) -> (forall x, sq x = mul x x) ->
  (forall x, is_one x = true <-> x = one) ->
  (0 < k < 63)%nat -> 0 < threads < 2 ^ 63 ->
  exists ws ret,
    get_bitrev_powers_writes one mul sq is_one threads (2 ^ k) g c = Some ws /\
    get_bitrev_powers_serial mul zero (2 ^ k) g c = Some ret /\
    length ret = (2 ^ k)%nat /\
    (forall i, (i < 2 ^ k)%nat -> exists j, reverse_bits_len (Z.of_nat i) (Z.of_nat k) = Some j /\
       nth_error ret (Z.to_nat j) = Some (mul c (times one mul i g))) /\
    (forall order, Permutation order ws -> apply_writes order (repeat zero (2 ^ k)) = Some ret).
Proof. exact bitrev_parallel_any_order. Qed.
Print Assumptions C15_bit_reversed_partial.

(** Missing: size 1 = 2^0. There the code shifts a 64-bit word by 64, which is undefined. *)
Theorem C15_bit_reversed_size_one_refuted : forall (G : Type) (one : G) mul (sq : G -> G) is_one (g c zero : G) threads,
  0 < threads < 2 ^ 63 ->
  get_bitrev_powers_serial mul zero 1 g c = None /\
  get_bitrev_powers_writes one mul sq is_one threads 1 g c = None.
Proof. exact bitrev_size_one_undefined. Qed.
Print Assumptions C15_bit_reversed_size_one_refuted.

Example C15_nonvacuous :
  get_successive_powers 1 Z.mul (fun x => x * x) (Z.eqb 1) 3 0 7 2 5 = Some [5; 10; 20; 40; 80; 160; 320] /\
  get_successive_powers 1 Z.mul (fun x => x * x) (Z.eqb 1) 3 0 7 2 1 = Some [1; 2; 4; 8; 16; 32; 64] /\
  get_bitrev_powers_serial Z.mul 0 8 2 1 = Some [1; 16; 4; 64; 2; 32; 8; 128] /\
  option_map (fun ws => apply_writes (rev ws) (repeat 0 8))
    (get_bitrev_powers_writes 1 Z.mul (fun x => x * x) (Z.eqb 1) 3 8 2 1) = Some (Some [1; 16; 4; 64; 2; 32; 8; 128]).
Proof. ands; vm_compute; reflexivity. Qed.

(** C16. In and out of place, for every thread count below 128: coeff/g for the non-zero entries, zero
    for the zero ones. *)
Theorem C16_batch_inverse_partial : forall (K : fld) (coeff : K) threads in_place (gs out : list K),
  0 < threads < 128 -> 2 * Z.of_nat (length gs) + threads < 2 ^ 64 ->
  length gs = length out -> (in_place = true -> out = gs) ->
  batch_inverse f0 f1 fmul (fun x : K => if feqb x f0 then None else Some (finv x))
    (fun x => feqb x f0) (fun x => feqb x f1) threads in_place gs out coeff =
  Some (map (fun g => if feqb g f0 then f0 else fmul coeff (finv g)) gs).
Proof. exact batch_inverse_spec. Qed.
Print Assumptions C16_batch_inverse_partial.

(** Missing: 128 or more threads. The code computes size_t{1} << (threads / 2), an undefined shift. *)
Theorem C16_batch_inverse_many_threads_refuted :
  forall (K : fld) threads in_place (gs out : list K) coeff zero one mul inverse iz io,
  128 <= threads -> length gs = length out ->
  batch_inverse zero one mul inverse iz io threads in_place gs out coeff = None.
Proof. exact batch_many_threads. Qed.
Print Assumptions C16_batch_inverse_many_threads_refuted.

Theorem C16_batch_inverse_serial : forall (K : fld) in_place (gs out : list K) coeff,
  length gs = length out -> (in_place = true -> out = gs) ->
  batch_inverse_serial f0 f1 fmul (fun x : K => if feqb x f0 then None else Some (finv x))
    (fun x => feqb x f0) (fun x => feqb x f1) in_place gs out coeff =
  Some (map (fun g => if feqb g f0 then f0 else fmul coeff (finv g)) gs).
Proof. exact batch_serial. Qed.
Print Assumptions C16_batch_inverse_serial.

Theorem C16_size_mismatch : forall (K : fld) zero one mul inverse iz io threads in_place (gs out : list K) coeff,
  length gs <> length out ->
  batch_inverse zero one mul inverse iz io threads in_place gs out coeff = None /\
  batch_inverse_serial zero one mul inverse iz io in_place gs out coeff = None.
Proof. exact batch_mismatch. Qed.
Print Assumptions C16_size_mismatch.

Example C16_nonvacuous :
  let f := (mkz 7 (prime_check_sound 7 eq_refl) : Z -> F7) in
  option_map (map (zval 7))
    (batch_inverse (f0 : F7) f1 fmul (fun x => if feqb x f0 then None else Some (finv x))
       (fun x => feqb x f0) (fun x => feqb x f1) 4 true (map f [3; 0; 5; 0; 2; 6]) (map f [3; 0; 5; 0; 2; 6]) (f 2))
  = Some [3; 0; 6; 0; 1; 5].
Proof. vm_compute. reflexivity. Qed.
