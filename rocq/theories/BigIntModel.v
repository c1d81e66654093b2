(** Model of tachyon/math/base/arithmetics.h and tachyon/math/base/big_int.h.
    A C++ word of [w] bits is a [Z] in [0, 2^w); a [BigInt<N>] is the list of its N
    limbs, least significant first (the layout of a little-endian host, ARCH_CPU_LITTLE_ENDIAN;
    the big-endian preprocessor branches are not modelled).
    Undefined behaviour is the outcome [None]. *)
From Coq Require Import ZArith List Bool.
Import ListNotations.
Open Scope Z_scope.

(** Truncation of an integer to a [w]-bit unsigned word (static_cast<uintW_t>). *)
Definition trunc (w x : Z) : Z := x mod 2 ^ w.

(* ------------------------------------------------------------------ *)
(** * Word primitives: arithmetics.h *)

(** arithmetics.h:37-50 (u32) and 83-101 (u64) AddWithCarry, portable branch
    ([tmp = a + b + carry] in a double-width word; low and high halves). *)
Definition add_with_carry (w a b carry : Z) : Z * Z :=
  let tmp := trunc (2 * w) (a + b + carry) in
  (trunc w tmp, tmp / 2 ^ w).

(** The compiler builtins / intrinsics used on x86-64 for SubWithBorrow:
    __builtin_subc(l) / _subborrow_u{32,64} (arithmetics.h:57-60, 108-115): result a - b - borrow
    truncated, borrow-out set when the subtraction underflows. This branch is the one compiled on the
    supported hosts and it is the one [BigInt] is modelled with. *)
Definition sub_with_borrow (w a b borrow : Z) : Z * Z :=
  (trunc w (a - b - borrow), if a - b - borrow <? 0 then 1 else 0).

(** arithmetics.h:62-67 u32::SubWithBorrow, portable branch. *)
Definition sub_with_borrow_portable32 (a b borrow : Z) : Z * Z :=
  let tmp := trunc 64 (2 ^ 32 + a - b - borrow) in
  (trunc 32 tmp, if Z.eqb (tmp / 2 ^ 32) 0 then 1 else 0).

(** arithmetics.h:116-121 u64::SubWithBorrow, portable branch: the borrow is the high half itself. *)
Definition sub_with_borrow_portable64 (a b borrow : Z) : Z * Z :=
  let tmp := trunc 128 (2 ^ 64 + a - b - borrow) in
  (trunc 64 tmp, trunc 64 (tmp / 2 ^ 64)).

(** arithmetics.h:71-79 (u32) and 126-136 (u64) MulAddWithCarry: (lo, hi) of a + b*c + carry. *)
Definition mul_add_with_carry (w a b c carry : Z) : Z * Z :=
  let tmp := trunc (2 * w) (a + b * c + carry) in
  (trunc w tmp, tmp / 2 ^ w).

(* ------------------------------------------------------------------ *)
(** * Limb loops: big_int.h *)

(** big_int.h:911-946 DoAdd (the six inlined steps followed by the loop are one scan). *)
Fixpoint do_add (w : Z) (a b : list Z) (carry : Z) : list Z * Z :=
  match a, b with
  | x :: a', y :: b' =>
      let '(r, c) := add_with_carry w x y carry in
      let '(rs, c') := do_add w a' b' c in
      (r :: rs, c')
  | _, _ => ([], carry)
  end.

(** big_int.h:948-983 DoSub. *)
Fixpoint do_sub (w : Z) (a b : list Z) (borrow : Z) : list Z * Z :=
  match a, b with
  | x :: a', y :: b' =>
      let '(r, c) := sub_with_borrow w x y borrow in
      let '(rs, c') := do_sub w a' b' c in
      (r :: rs, c')
  | _, _ => ([], borrow)
  end.

(** big_int.h:536-555 Add, 557-576 Sub (AddResult/SubResult start with a zero carry). *)
Definition bi_add_carry (a b : list Z) : list Z * Z := do_add 64 a b 0.
Definition bi_sub_borrow (a b : list Z) : list Z * Z := do_sub 64 a b 0.
Definition bi_add (a b : list Z) : list Z := fst (bi_add_carry a b).
Definition bi_sub (a b : list Z) : list Z := fst (bi_sub_borrow a b).

(** big_int.h:985-992 DoMulBy2 (carry is an in/out argument). *)
Fixpoint do_mul_by_2 (a : list Z) (carry : Z) : list Z * Z :=
  match a with
  | [] => ([], carry)
  | x :: a' =>
      let temp := Z.shiftr x 63 in
      let r := Z.lor (trunc 64 (Z.shiftl x 1)) carry in
      let '(rs, c') := do_mul_by_2 a' temp in
      (r :: rs, c')
  end.
(** big_int.h:578-597 MulBy2 / MulBy2InPlace with carry initialised to 0 by the callers. *)
Definition bi_mul_by_2 (a : list Z) : list Z * Z := do_mul_by_2 a 0.

(** big_int.h:649-658 DivBy2InPlace: scan from the most significant limb; returns the bit handed to
    the next lower limb. *)
Fixpoint do_div_by_2 (a : list Z) : list Z * Z :=
  match a with
  | [] => ([], 0)
  | x :: a' =>
      let '(rs, last) := do_div_by_2 a' in
      (Z.lor (Z.shiftr x 1) last :: rs, trunc 64 (Z.shiftl x 63))
  end.
Definition bi_div_by_2 (a : list Z) : list Z := fst (do_div_by_2 a).

(** big_int.h:606 FOR_FROM_SMALLEST std::swap(t, limbs[i]). *)
Fixpoint swap_up (t : Z) (a : list Z) : list Z :=
  match a with [] => [] | x :: a' => t :: swap_up x a' end.
(** big_int.h:669 FOR_FROM_BIGGEST std::swap(t, limbs[i]); returns the limb left in t. *)
Fixpoint swap_down (a : list Z) : list Z * Z :=
  match a with
  | [] => ([], 0)
  | x :: a' => let '(rs, t) := swap_down a' in (t :: rs, x)
  end.

(** big_int.h:610-619 residual left shift by 0 < n < 64. *)
Fixpoint shl_bits (n : Z) (t : Z) (a : list Z) : list Z :=
  match a with
  | [] => []
  | x :: a' =>
      let t2 := Z.shiftr x (64 - n) in
      Z.lor (trunc 64 (Z.shiftl x n)) t :: shl_bits n t2 a'
  end.
(** big_int.h:674-682 residual right shift by 0 < n < 64, from the most significant limb. *)
Fixpoint shr_bits (n : Z) (a : list Z) : list Z * Z :=
  match a with
  | [] => ([], 0)
  | x :: a' =>
      let '(rs, t) := shr_bits n a' in
      (Z.lor (Z.shiftr x n) t :: rs, trunc 64 (Z.shiftl x (64 - n)))
  end.

(** big_int.h:599-621 MulBy2ExpInPlace. The while (n >= 64) loop runs n/64 times. *)
Definition bi_mul_by_2exp (a : list Z) (n : Z) : list Z :=
  if 64 * Z.of_nat (length a) <=? n then map (fun _ => 0) a
  else
    let a1 := Nat.iter (Z.to_nat (n / 64)) (swap_up 0) a in
    let n1 := n mod 64 in
    if 0 <? n1 then shl_bits n1 0 a1 else a1.

(** big_int.h:660-684 DivBy2ExpInPlace. For N = 1 the limb loop is compiled out; there n < 64. *)
Definition bi_div_by_2exp (a : list Z) (n : Z) : list Z :=
  if 64 * Z.of_nat (length a) <=? n then map (fun _ => 0) a
  else
    let a1 := if (1 <? length a)%nat
              then Nat.iter (Z.to_nat (n / 64)) (fun x => fst (swap_down x)) a else a in
    let n1 := n mod 64 in
    if 0 <? n1 then fst (shr_bits n1 a1) else a1.

(** big_int.h:632-647 Multiply. [r] is the not yet finished part of lo ++ hi seen from index i;
    inner loop over j, then ret.hi[i] = carry. *)
Fixpoint mul_row (w ai : Z) (b r : list Z) (carry : Z) : list Z :=
  match b, r with
  | y :: b', x :: r' =>
      let '(lo, hi) := mul_add_with_carry w x ai y carry in
      lo :: mul_row w ai b' r' hi
  | [], _ :: r' => carry :: r'
  | _, [] => []
  end.
Fixpoint mul_rows (w : Z) (a b r : list Z) : list Z :=
  match a with
  | [] => r
  | ai :: a' =>
      match mul_row w ai b r 0 with
      | [] => []
      | x :: rest => x :: mul_rows w a' b rest
      end
  end.
(** big_int.h:624-630 MulExtend and 623 Mul. *)
Definition bi_mul_extend (a b : list Z) : list Z :=
  mul_rows 64 a b (repeat 0 (2 * length a)).
Definition bi_mul (a b : list Z) : list Z := firstn (length a) (bi_mul_extend a b).

(** big_int.h:305-310 IsZero, 312-317 IsOne, 319-320 IsEven/IsOdd. *)
Definition bi_is_zero (a : list Z) : bool := forallb (fun x => x =? 0) a.
Definition bi_is_one (a : list Z) : bool :=
  match a with [] => false | x :: a' => forallb (fun y => y =? 0) a' && (x =? 1) end.
Definition bi_is_even (a : list Z) : bool :=
  match a with [] => false | x :: _ => x mod 2 =? 0 end.
Definition bi_is_odd (a : list Z) : bool :=
  match a with [] => false | x :: _ => x mod 2 =? 1 end.

(** big_int.h:355-360 operator==. *)
Fixpoint bi_eqb (a b : list Z) : bool :=
  match a, b with
  | x :: a', y :: b' => if negb (x =? y) then false else bi_eqb a' b'
  | _, _ => true
  end.
(** big_int.h:366-396: scan from the biggest limb; [None] when all limbs are equal. *)
Fixpoint scan_cmp (f : Z -> Z -> bool) (a b : list Z) : option bool :=
  match a, b with
  | x :: a', y :: b' =>
      match scan_cmp f a' b' with
      | Some r => Some r
      | None => if x =? y then None else Some (f x y)
      end
  | _, _ => None
  end.
Definition scan_default (o : option bool) (d : bool) : bool :=
  match o with Some r => r | None => d end.
Definition bi_ltb a b := scan_default (scan_cmp Z.ltb a b) false.
Definition bi_gtb a b := scan_default (scan_cmp Z.gtb a b) false.
Definition bi_leb a b := scan_default (scan_cmp Z.ltb a b) true.
Definition bi_geb a b := scan_default (scan_cmp Z.gtb a b) true.

(** big_int.h:439-512 operator&, operator|, operator^ via DoAnd/DoOr/DoXor 994-1010. *)
Fixpoint bi_map2 (f : Z -> Z -> Z) (a b : list Z) : list Z :=
  match a, b with
  | x :: a', y :: b' => f x y :: bi_map2 f a' b'
  | _, _ => []
  end.
Definition bi_and := bi_map2 Z.land.
Definition bi_or := bi_map2 Z.lor.
Definition bi_xor := bi_map2 Z.lxor.

(** big_int.h:277-289 Clamp<ModulusHasSpareBit>. *)
Definition bi_clamp (spare : bool) (modulus value : list Z) (carry : bool) : list Z :=
  let needs := if spare then bi_geb value modulus else carry || bi_geb value modulus in
  if needs then bi_sub value modulus else value.

(* ------------------------------------------------------------------ *)
(** * Bits: BitTraits<BigInt<N>> (big_int.h:1135-1161) *)

Fixpoint update_nth (i : nat) (f : Z -> Z) (l : list Z) : list Z :=
  match l, i with
  | [], _ => []
  | x :: l', O => f x :: l'
  | x :: l', S i' => x :: update_nth i' f l'
  end.

(** big_int.h:1142-1148 TestBit. *)
Definition bi_test_bit (a : list Z) (index : nat) : bool :=
  match nth_error a (index / 64) with
  | None => false
  | Some limb =>
      let v := Z.shiftl 1 (Z.of_nat (index mod 64)) in Z.land limb v =? v
  end.
(** big_int.h:1149-1160 SetBit. *)
Definition bi_set_bit (a : list Z) (index : nat) (b : bool) : list Z :=
  let v := Z.shiftl 1 (Z.of_nat (index mod 64)) in
  update_nth (index / 64)
    (fun limb => if b then Z.lor limb v else Z.land limb (2 ^ 64 - 1 - v)) a.

(** big_int.h:701-726 Divide. [i] counts the bits still to process (loop index i-1).
    Returns [None] when the function returns false. *)
Fixpoint div_loop (a divisor : list Z) (i : nat) (quotient remainder : list Z)
  : option (list Z * list Z) :=
  match i with
  | O => Some (quotient, remainder)
  | S i' =>
      let '(r1, carry) := bi_mul_by_2 remainder in
      let r2 := update_nth 0 (fun x => Z.lor x (if bi_test_bit a i' then 1 else 0)) r1 in
      if bi_geb r2 divisor || negb (carry =? 0) then
        let '(r3, borrow) := bi_sub_borrow r2 divisor in
        if negb (borrow =? carry) then None
        else div_loop a divisor i' (bi_set_bit quotient i' true) r3
      else div_loop a divisor i' quotient r2
  end.
Definition bi_divide (a divisor : list Z) : option (list Z * list Z) :=
  if bi_is_zero divisor then None
  else div_loop a divisor (64 * length a) (map (fun _ => 0) a) (map (fun _ => 0) a).
(** big_int.h:686-691 Div; 694-698 Mod ignores the result of Divide: on failure the remainder of a
    default-constructed DivResult, i.e. zero limbs, is returned. *)
Definition bi_div (a b : list Z) : option (list Z) := option_map fst (bi_divide a b).
Definition bi_mod (a b : list Z) : list Z :=
  match bi_divide a b with Some (_, r) => r | None => map (fun _ => 0) a end.

(** big_int.h:734-745 ToBitsLE<kBitNums>, 748-759 ToBitsBE: the bitset as the list of its bits,
    position 0 first. *)
Definition bit_of (a : list Z) (i : nat) : bool :=
  match nth_error a (i / 64) with
  | None => false (* not reached: i < kBitNums *)
  | Some limb =>
      negb (Z.shiftr (Z.land limb (Z.shiftl 1 (Z.of_nat (i mod 64)))) (Z.of_nat (i mod 64)) =? 0)
  end.
Definition bi_to_bits_le (a : list Z) : list bool := map (bit_of a) (seq 0 (64 * length a)).
Definition bi_to_bits_be (a : list Z) : list bool := map (bit_of a) (rev (seq 0 (64 * length a))).

(** big_int.h:133-155 FromBitsLE / 159-181 FromBitsBE. [bits] is the sequence in the order visited by
    the loop; [cur] the limb under construction (std::bitset<64>), [idx] = bit_idx.
    A limb is emitted when 64 bits are collected or the last bit is reached; remaining limbs stay 0. *)
Fixpoint from_bits_loop (bits : list bool) (cur : Z) (idx : nat) : list Z :=
  match bits with
  | [] => []
  | b :: rest =>
      let cur1 := if b then Z.lor cur (Z.shiftl 1 (Z.of_nat idx)) else cur in
      let idx1 := S idx in
      if (idx1 =? 64)%nat || match rest with [] => true | _ => false end
      then cur1 :: from_bits_loop rest 0 0
      else from_bits_loop rest cur1 idx1
  end.
Definition pad_limbs (n : nat) (l : list Z) : list Z := l ++ repeat 0 (n - length l).
(** static_assert(BitNums <= kBitNums) guarantees at most n limbs are produced. *)
Definition bi_from_bits_le (n : nat) (bits : list bool) : list Z :=
  pad_limbs n (from_bits_loop bits 0 0).
Definition bi_from_bits_be (n : nat) (bits : list bool) : list Z :=
  pad_limbs n (from_bits_loop (rev bits) 0 0).

(** big_int.h:764-774 ToBytesLE, 779-789 ToBytesBE (byte i%8 of limb i/8). *)
Definition byte_of (a : list Z) (i : nat) : Z :=
  match nth_error a (i / 8) with
  | None => 0 (* not reached: i < kByteNums *)
  | Some limb => trunc 8 (Z.shiftr limb (8 * Z.of_nat (i mod 8)))
  end.
Definition bi_to_bytes_le (a : list Z) : list Z := map (byte_of a) (seq 0 (8 * length a)).
Definition bi_to_bytes_be (a : list Z) : list Z := map (byte_of a) (rev (seq 0 (8 * length a))).

(** big_int.h:189-209 FromBytesLE, 217-237 FromBytesBE. Writing limb N or beyond is undefined
    behaviour ([None]): the byte container's size is not checked. *)
Fixpoint from_bytes_loop (bytes : list Z) (cur : Z) (idx : nat) : list Z :=
  match bytes with
  | [] => []
  | b :: rest =>
      let cur1 := Z.lor cur (Z.shiftl b (8 * Z.of_nat idx)) in
      let idx1 := S idx in
      if (idx1 =? 8)%nat || match rest with [] => true | _ => false end
      then cur1 :: from_bytes_loop rest 0 0
      else from_bytes_loop rest cur1 idx1
  end.
Definition bi_from_bytes (n : nat) (bytes : list Z) : option (list Z) :=
  let l := from_bytes_loop bytes 0 0 in
  if (length l <=? n)%nat then Some (pad_limbs n l) else None.
Definition bi_from_bytes_le (n : nat) (bytes : list Z) := bi_from_bytes n bytes.
Definition bi_from_bytes_be (n : nat) (bytes : list Z) := bi_from_bytes n (rev bytes).

(** big_int.h:1012-1037 ExtractBits<T> for T of [w] bits; [ptr] are the limbs seen as T words.
    A shift by at least the width, or an index outside the array, is undefined behaviour. *)
Definition extract_bits (w : nat) (ptr : list Z) (bit_offset bit_count : nat) : option Z :=
  let limb_idx := (bit_offset / w)%nat in
  let bit_idx := (bit_offset mod w)%nat in
  let zw := Z.of_nat w in
  match nth_error ptr limb_idx with
  | None => None
  | Some cur =>
      (* bits - bit_count is an unsigned (size_t) subtraction *)
      let diff := Z.modulo (zw - Z.of_nat bit_count) (2 ^ 64) in
      let ret :=
        if (Z.of_nat bit_idx <? diff) || (limb_idx =? length ptr - 1)%nat then
          Some (Z.shiftr cur (Z.of_nat bit_idx))
        else
          match nth_error ptr (S limb_idx) with
          | None => None
          | Some next =>
              if (bit_idx =? 0)%nat then None (* next << bits *)
              else Some (Z.lor (Z.shiftr cur (Z.of_nat bit_idx))
                               (trunc zw (Z.shiftl next (zw - Z.of_nat bit_idx))))
          end in
      if (w <=? bit_count)%nat then None (* T{1} << bit_count *)
      else option_map (fun r => Z.land r (Z.shiftl 1 (Z.of_nat bit_count) - 1)) ret
  end.

(** big_int.h:253-271 Extend, Shrink. *)
Definition bi_extend (n2 : nat) (a : list Z) : list Z := a ++ repeat 0 (n2 - length a).
Definition bi_shrink (n2 : nat) (a : list Z) : list Z := firstn n2 a.

(** big_int.h:878-908 ToNAF; fuel is the number of loop iterations allowed ([None] = exhausted).
    v -= BigInt(z) / v += BigInt(1) wrap modulo 2^(64N). *)
Definition bi_of_small (n : nat) (x : Z) : list Z :=
  match n with O => [] | S n' => x :: repeat 0 n' end.
Fixpoint naf_loop (fuel : nat) (v : list Z) : option (list Z) :=
  match fuel with
  | O => None
  | S fuel' =>
      if bi_is_zero v then Some []
      else
        let '(z, v1) :=
          if bi_is_odd v then
            let z := 2 - (hd 0 v) mod 4 in
            if 0 <=? z then (z, bi_sub v (bi_of_small (length v) z))
            else (z, bi_add v (bi_of_small (length v) (- z)))
          else (0, v) in
        option_map (cons z) (naf_loop fuel' (bi_div_by_2 v1))
  end.
Definition bi_to_naf (v : list Z) : option (list Z) := naf_loop (64 * length v + 2) v.

(** big_int.h:105-114 Random(max): [limbs] are the words drawn by base::Uniform; the while loop
    halves until the value is below max. [None] = fuel exhausted (max = 0 loops forever). *)
Fixpoint random_loop (fuel : nat) (v max : list Z) : option (list Z) :=
  match fuel with
  | O => None
  | S fuel' => if bi_geb v max then random_loop fuel' (bi_div_by_2 v) max else Some v
  end.
Definition bi_random (limbs max : list Z) : option (list Z) :=
  random_loop (64 * length limbs + 2) limbs max.

(* ------------------------------------------------------------------ *)
(** * Montgomery reduction *)

(** big_int.h:1110-1128 MontgomeryReduce row i, seen from r_ptr[i]:
    k = r[i]*inverse; the first product only contributes its high part (r[i] itself is not stored),
    r[i+j] += k*m[j]; finally r[num+i] += hi + carry. Returns the tail r[i+1..] and the carry. *)
Fixpoint redc_inner (w k : Z) (m r : list Z) (hi carry : Z) : list Z * Z :=
  match m, r with
  | y :: m', x :: r' =>
      let '(lo, hi') := mul_add_with_carry w x k y hi in
      let '(rs, c) := redc_inner w k m' r' hi' carry in
      (lo :: rs, c)
  | [], x :: r' =>
      let '(s, c) := add_with_carry w x hi carry in (s :: r', c)
  | _, [] => ([], carry)
  end.
Definition redc_row (w inv : Z) (m r : list Z) (carry : Z) : list Z * Z :=
  match m, r with
  | m0 :: m', r0 :: r' =>
      let k := trunc w (r0 * inv) in
      let '(_, hi) := mul_add_with_carry w r0 k m0 0 in
      redc_inner w k m' r' hi carry
  | _, _ => ([], carry)
  end.
(** [n] rows remain; the list shrinks by one limb per row, so what is left are the top num limbs. *)
Fixpoint redc_rows (w inv : Z) (m : list Z) (n : nat) (r : list Z) (carry : Z) : list Z * Z :=
  match n with
  | O => (r, carry)
  | S n' => let '(r', c) := redc_row w inv m r carry in redc_rows w inv m n' r' c
  end.
(** big_int.h:1098-1132 MontgomeryReduce64 (w = 64, num = N). *)
Definition bi_montgomery_reduce (spare : bool) (r m : list Z) (inv : Z) : list Z :=
  let '(hi, c) := redc_rows 64 inv m (length m) r 0 in
  bi_clamp spare m hi (negb (c =? 0)).

(** big_int.h:1047-1074 FromMontgomery: one row on a rotated window. [r] is
    r[i], r[i+1], ..., r[i-1] (indices mod num); the result is the window starting at i+1. *)
Fixpoint from_mont_inner (w k : Z) (m r : list Z) (hi : Z) : list Z :=
  match m, r with
  | y :: m', x :: r' =>
      let '(lo, hi') := mul_add_with_carry w x k y hi in
      lo :: from_mont_inner w k m' r' hi'
  | _, _ => [hi]
  end.
Definition from_mont_row (w inv : Z) (m r : list Z) : list Z :=
  match m, r with
  | m0 :: m', r0 :: r' =>
      let k := trunc w (r0 * inv) in
      let '(_, hi) := mul_add_with_carry w r0 k m0 0 in
      from_mont_inner w k m' r' hi
  | _, _ => []
  end.
Definition bi_from_montgomery (w : Z) (value m : list Z) (inv : Z) : list Z :=
  Nat.iter (length m) (from_mont_row w inv m) value.

(** big_int.h:791-868 MontgomeryInverse<ModulusHasSpareBit>. *)
(** Lines 814-827 / 831-844: halve u (v) and b (c) modulo the modulus. *)
Definition set_top_bit (a : list Z) : list Z :=
  update_nth (length a - 1) (fun x => Z.lor x (Z.shiftl 1 63)) a.
Definition half_mod (spare : bool) (m b : list Z) : list Z :=
  if bi_is_even b then bi_div_by_2 b
  else
    let '(b1, carry) := bi_add_carry b m in
    let b2 := bi_div_by_2 b1 in
    if spare then b2 else if negb (carry =? 0) then set_top_bit b2 else b2.
(** while (u.IsEven()) ...; [None] = fuel exhausted. *)
Fixpoint strip_twos (spare : bool) (m : list Z) (fuel : nat) (u b : list Z)
  : option (list Z * list Z) :=
  match fuel with
  | O => None
  | S fuel' =>
      if bi_is_even u then strip_twos spare m fuel' (bi_div_by_2 u) (half_mod spare m b)
      else Some (u, b)
  end.
Fixpoint minv_loop (spare : bool) (m : list Z) (inner fuel : nat) (u v b c : list Z)
  : option (list Z) :=
  if negb (bi_is_one u) && negb (bi_is_one v) then
    match fuel with
    | O => None
    | S fuel' =>
        match strip_twos spare m inner u b with
        | None => None
        | Some (u1, b1) =>
            match strip_twos spare m inner v c with
            | None => None
            | Some (v1, c1) =>
                if bi_ltb v1 u1 then
                  let b2 := if bi_geb b1 c1 then bi_sub b1 c1 else bi_add b1 (bi_sub m c1) in
                  minv_loop spare m inner fuel' (bi_sub u1 v1) v1 b2 c1
                else
                  let c2 := if bi_geb c1 b1 then bi_sub c1 b1 else bi_add c1 (bi_sub m b1) in
                  minv_loop spare m inner fuel' u1 (bi_sub v1 u1) b1 c2
            end
        end
    end
  else Some (if bi_is_one u then b else c).
(** Outcome: [None] fuel exhausted, [Some None] = returns false, [Some (Some out)] = true. *)
Definition bi_montgomery_inverse (spare : bool) (fuel : nat) (a m r2 : list Z)
  : option (option (list Z)) :=
  if bi_is_zero a then Some None
  else option_map Some
         (minv_loop spare m (64 * length m + 1) fuel a m r2 (map (fun _ => 0) m)).
