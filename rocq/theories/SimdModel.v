(** Model of the packed 32-bit prime fields: finite_fields/packed_prime_field32_avx2.h, packed_prime_field32_avx512.h,
    packed_prime_field32_neon.h, the Mul of mersenne31/internal/packed_mersenne31_avx2.cc, _avx512.cc and _neon.cc, and
    packed_prime_field_base.h. A vector register is the function giving its 32-bit lanes as numbers in [0, 2^32), lane 0
    the lowest; a 64-bit element is a pair of lanes. Only definitions. *)
From Coq Require Import ZArith List Bool Arith.
From Verif Require Import BigIntModel SmallFieldModel SemigroupModel.
Import ListNotations.
Open Scope Z_scope.

Definition vec := nat -> Z.
(** the value of a 32-bit or 64-bit word read as a signed integer. *)
Definition s32 (x : Z) : Z := if x <? 2 ^ 31 then x else x - 2 ^ 32.
Definition s64 (x : Z) : Z := if x <? 2 ^ 63 then x else x - 2 ^ 64.
(** the even lane of the pair of lane [i], and the odd one. *)
Definition evn (i : nat) : nat := (2 * Nat.div i 2)%nat.
Definition odd_of (i : nat) : nat := (2 * Nat.div i 2 + 1)%nat.
(** the 64-bit element around lane [i], and storing 64-bit elements: lane [i] of the element [f]. *)
Definition q64 (a : vec) (i : nat) : Z := a (evn i) + 2 ^ 32 * a (odd_of i).
Definition lane64 (x : Z) (i : nat) : Z := if Nat.even i then trunc 32 x else trunc 32 (Z.shiftr x 32).

(** ** The instructions (Intel intrinsics guide). *)
Definition set1 (x : Z) : vec := fun _ => trunc 32 x.
Definition add_epi32 (a b : vec) : vec := fun i => trunc 32 (a i + b i).
Definition sub_epi32 (a b : vec) : vec := fun i => trunc 32 (a i - b i).
Definition min_epu32 (a b : vec) : vec := fun i => Z.min (a i) (b i).
Definition sign_epi32 (a b : vec) : vec :=
  fun i => if s32 (b i) <? 0 then trunc 32 (- a i) else if b i =? 0 then 0 else a i.
Definition mul_epu32 (a b : vec) : vec := fun i => lane64 (a (evn i) * b (evn i)) i.
Definition mul_epi32 (a b : vec) : vec := fun i => lane64 (trunc 64 (s32 (a (evn i)) * s32 (b (evn i)))) i.
Definition movehdup (a : vec) : vec := fun i => a (odd_of i).
Definition moveldup (a : vec) : vec := fun i => a (evn i).
(** blend_epi32 and the masked moves: the lanes whose bit is set come from the last operand. *)
Definition blend (a b : vec) (mask : Z) : vec := fun i => if Z.testbit mask (Z.of_nat i) then b i else a i.
Definition srli_epi64 (a : vec) (s : Z) : vec := fun i => lane64 (Z.shiftr (q64 a i) s) i.
Definition slli_epi64 (a : vec) (s : Z) : vec := fun i => lane64 (trunc 64 (Z.shiftl (q64 a i) s)) i.
Definition srli_epi32 (a : vec) (s : Z) : vec := fun i => Z.shiftr (a i) s.
Definition and_si (a b : vec) : vec := fun i => Z.land (a i) (b i).
(** masks of AVX-512 as one bit per lane. *)
Definition test_mask (a b : vec) : nat -> bool := fun i => negb (Z.land (a i) (b i) =? 0).
Definition cmplt_mask (a b : vec) : nat -> bool := fun i => a i <? b i.
Definition maskz_sub (k : nat -> bool) (a b : vec) : vec := fun i => if k i then trunc 32 (a i - b i) else 0.
Definition mask_add (src : vec) (k : nat -> bool) (a b : vec) : vec := fun i => if k i then trunc 32 (a i + b i) else src i.
(** ** The instructions of NEON. A comparison gives a lane of ones or zeros. *)
Definition ones_if (b : bool) : Z := if b then 2 ^ 32 - 1 else 0.
Definition vclt_u32 (a b : vec) : vec := fun i => ones_if (a i <? b i).
Definition vclt_s32 (a b : vec) : vec := fun i => ones_if (s32 (a i) <? s32 (b i)).
Definition vceqz (a : vec) : vec := fun i => ones_if (a i =? 0).
Definition vbic (a b : vec) : vec := fun i => Z.land (a i) (Z.lxor (b i) (2 ^ 32 - 1)).
Definition vmul (a b : vec) : vec := fun i => trunc 32 (a i * b i).
Definition vmls (a b c : vec) : vec := fun i => trunc 32 (a i - b i * c i).
(** saturating doubling multiply, high half: only the product of two lanes -2^31 saturates. *)
Definition vqdmulh (a b : vec) : vec :=
  fun i => trunc 32 (Z.min (2 ^ 31 - 1) (Z.shiftr (2 * (s32 (a i) * s32 (b i))) 32)).
(** halving subtraction. *)
Definition vhsub (a b : vec) : vec := fun i => trunc 32 (Z.shiftr (s32 (a i) - s32 (b i)) 1).

(** ** packed_prime_field32_avx2.h; [p] and [inv] are the broadcast kP and kInv. *)
(** :16-58 AddMod32 *)
Definition add_mod32 (p lhs rhs : vec) : vec := let t := add_epi32 lhs rhs in min_epu32 t (sub_epi32 t p).
(** :60-115 SubMod32 *)
Definition sub_mod32 (p lhs rhs : vec) : vec := let t := sub_epi32 lhs rhs in min_epu32 t (add_epi32 t p).
(** :117-149 NegateMod32 *)
Definition negate_mod32 (p val : vec) : vec := sign_epi32 (sub_epi32 p val) val.
(** :200-208 PartialMontyRedSignedToSigned *)
Definition partial_red (p inv input : vec) : vec :=
  let q := mul_epi32 input inv in
  let q_p := mul_epi32 q p in
  sub_epi32 input q_p.
(** :214-218 MontyMul, 224-228 MontyMulSigned *)
Definition monty_mul (p inv lhs rhs : vec) : vec := partial_red p inv (mul_epu32 lhs rhs).
Definition monty_mul_signed (p inv lhs rhs : vec) : vec := partial_red p inv (mul_epi32 lhs rhs).
(** :237-270 MontMulMod32 *)
Definition mont_mul_mod32 (p inv lhs rhs : vec) : vec :=
  let d_evn := monty_mul p inv lhs rhs in
  let d_odd := monty_mul p inv (movehdup lhs) (movehdup rhs) in
  let t := blend (movehdup d_evn) d_odd 170 in
  min_epu32 t (add_epi32 t p).
(** :276-282 ShiftedSquare *)
Definition shifted_square (p inv input : vec) : vec := movehdup (partial_red p inv (mul_epi32 input input)).
(** :295-307 ApplyFuncToEvenOdd *)
Definition apply_even_odd (p inv input : vec) (callback : vec -> vec) : vec :=
  let d_evn := callback input in
  let d_odd := callback (movehdup input) in
  let t := blend (movehdup d_evn) d_odd 170 in
  min_epu32 t (add_epi32 t p).
(** :312-319 Exp3, 324-332 Exp5, 337-347 Exp7 *)
Definition do_exp3 (p inv input : vec) : vec := monty_mul_signed p inv (shifted_square p inv input) input.
Definition exp3 (p inv input : vec) : vec := apply_even_odd p inv input (do_exp3 p inv).
Definition do_exp5 (p inv input : vec) : vec :=
  let square := shifted_square p inv input in
  let quad := shifted_square p inv square in
  monty_mul_signed p inv quad input.
Definition exp5 (p inv input : vec) : vec := apply_even_odd p inv input (do_exp5 p inv).
Definition do_exp7 (p inv input : vec) : vec :=
  let square := shifted_square p inv input in
  let cube := monty_mul_signed p inv square input in
  let cube_shifted := movehdup cube in
  let quad := shifted_square p inv square in
  monty_mul_signed p inv quad cube_shifted.
Definition exp7 (p inv input : vec) : vec := apply_even_odd p inv input (do_exp7 p inv).
(** mersenne31/internal/packed_mersenne31_avx2.cc:47-159 Mul *)
Definition mersenne_mul (p lhs rhs : vec) : vec :=
  let lhs_odd_dbl := srli_epi64 lhs 31 in
  let rhs_odd := movehdup rhs in
  let prod_odd_dbl := mul_epu32 rhs_odd lhs_odd_dbl in
  let prod_evn := mul_epu32 rhs lhs in
  let prod_odd_lo_dirty := slli_epi64 prod_odd_dbl 31 in
  let prod_evn_hi := srli_epi64 prod_evn 31 in
  let prod_lo_dirty := blend prod_evn prod_odd_lo_dirty 170 in
  let prod_hi := blend prod_evn_hi prod_odd_dbl 170 in
  let prod_lo := and_si prod_lo_dirty p in
  add_mod32 p prod_lo prod_hi.

(** ** packed_prime_field32_avx512.h. AddMod32 (15-57) and SubMod32 (59-114) are those of AVX2 on 16 lanes. *)
Definition evens : Z := 21845.
Definition odds : Z := 43690.
(** :116-132 NegateMod32 *)
Definition negate_mod32_512 (p val : vec) : vec := maskz_sub (test_mask val val) p val.
(** :164 and following, MontMulMod32; mask_movehdup_epi32 (148-154) is [blend src (movehdup a) k]. *)
Definition mont_mul_mod32_512 (p inv lhs rhs : vec) : vec :=
  let prod_evn := mul_epu32 lhs rhs in
  let prod_odd := mul_epu32 (movehdup lhs) (movehdup rhs) in
  let q_evn := mul_epu32 prod_evn inv in
  let q_odd := mul_epu32 prod_odd inv in
  let prod_hi := blend prod_odd (movehdup prod_evn) evens in
  let q_p_evn := mul_epu32 q_evn p in
  let q_p_odd := mul_epu32 q_odd p in
  let q_p_hi := blend q_p_odd (movehdup q_p_evn) evens in
  let underflow := cmplt_mask prod_hi q_p_hi in
  let t := sub_epi32 prod_hi q_p_hi in
  mask_add t underflow t p.
(** mersenne31/internal/packed_mersenne31_avx512.cc:43-118 Mul *)
Definition mersenne_mul_512 (p lhs rhs : vec) : vec :=
  let lhs_evn_dbl := add_epi32 lhs lhs in
  let rhs_odd := movehdup rhs in
  let lhs_odd_dbl := srli_epi64 lhs 31 in
  let prod_odd_dbl := mul_epu32 lhs_odd_dbl rhs_odd in
  let prod_evn_dbl := mul_epu32 lhs_evn_dbl rhs in
  let prod_lo_dbl := blend prod_evn_dbl (moveldup prod_odd_dbl) odds in
  let prod_hi := blend prod_odd_dbl (movehdup prod_evn_dbl) evens in
  let prod_lo := srli_epi32 prod_lo_dbl 1 in
  add_mod32 p prod_lo prod_hi.

(** ** packed_prime_field32_neon.h. *)
(** :17-33 ReduceSum32, 35-77 AddMod32, 79-137 SubMod32, 139-177 NegateMod32 *)
Definition reduce_sum32 (p val : vec) : vec := min_epu32 val (sub_epi32 val p).
Definition add_mod32_neon (p lhs rhs : vec) : vec := reduce_sum32 p (add_epi32 lhs rhs).
Definition sub_mod32_neon (p lhs rhs : vec) : vec := vmls (sub_epi32 lhs rhs) (vclt_u32 lhs rhs) p.
Definition negate_mod32_neon (p val : vec) : vec := vbic (sub_epi32 p val) (vceqz val).
(** :179-247 MulByInv, GetCHi, GetQPHi, GetD, GetReducedD, and 248 and following, MontMulMod32. *)
Definition mont_mul_mod32_neon (p inv lhs rhs : vec) : vec :=
  let inv_rhs := vmul rhs inv in
  let c_hi := vqdmulh lhs rhs in
  let q := vmul lhs inv_rhs in
  let qp_hi := vqdmulh q p in
  let d := vhsub c_hi qp_hi in
  let underflow := vclt_s32 c_hi qp_hi in
  vmls d underflow p.
(** mersenne31/internal/packed_mersenne31_neon.cc:45-92 mul_31x31_to_hi_31, Mul *)
Definition mersenne_mul_neon (p lhs rhs : vec) : vec :=
  let prod_hi31 := vqdmulh lhs rhs in
  let prod_lo32 := vmul lhs rhs in
  let t := vmls prod_lo32 prod_hi31 p in
  reduce_sum32 p t.

(** ** Values. Lane [i] of every kind is the field element of that lane. *)
(** baby_bear/internal/packed_baby_bear_avx2.cc:48-51 (and avx512.cc, neon.cc, and koala_bear): PackedBabyBear(uint32_t). *)
Definition packed_of_mont (p v : Z) : vec := set1 (sfm_of p v).
(** mersenne31/internal/packed_mersenne31_avx2.cc:163-166, avx512.cc:122-125, neon.cc:96-99: PackedMersenne31(uint32_t). *)
Definition packed_of_mersenne (v : Z) : vec := set1 v.
(** packed_prime_field_base.h:131-135 Inverse and 137-140 InverseInPlace, on the array of the lanes; the array of the result of
    Inverse starts as default-constructed elements. [None]: the CHECK fails. *)
Definition packed_inverse {F : Type} (zero one : F) (mul : F -> F -> F) (inverse : F -> option F) (is_zero is_one : F -> bool) (values : list F) : option (list F) :=
  batch_inverse_serial zero one mul inverse is_zero is_one false values (map (fun _ => zero) values) one.
Definition packed_inverse_in_place {F : Type} (zero one : F) (mul : F -> F -> F) (inverse : F -> option F) (is_zero is_one : F -> bool) (values : list F) : option (list F) :=
  batch_inverse_serial zero one mul inverse is_zero is_one true values values one.
