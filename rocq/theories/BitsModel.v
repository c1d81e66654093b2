(** Model of base/bits.h and base/bits.cc. Only definitions. [w] is the bit width of the unsigned type. *)
From Coq Require Import ZArith List Bool.
From Verif Require Import BigIntModel.
Import ListNotations.
Open Scope Z_scope.

(** bits.h:25-34 IsPowerOfTwo. *)
Definition is_power_of_two (value : Z) : bool := (0 <? value) && (Z.land value (value - 1) =? 0).

(** bits.h:37-41 AlignDown, 53-57 AlignUp; the DCHECK on the alignment is a precondition. ~m is the w-bit
    complement. *)
Definition align_down (w size alignment : Z) : Z := Z.land size (2 ^ w - 1 - trunc w (alignment - 1)).
Definition align_up (w size alignment : Z) : Z :=
  Z.land (trunc w (trunc w (size + alignment) - 1)) (2 ^ w - 1 - trunc w (alignment - 1)).

(** __builtin_clzll and __builtin_ctzll on a non-zero argument, as the loops that define them: count
    clear bits from the top (bottom). *)
Fixpoint clz_loop (k : nat) (v : Z) : Z :=
  match k with O => 0 | S j => if Z.testbit v (Z.of_nat j) then 0 else 1 + clz_loop j v end.
Fixpoint ctz_loop (k : nat) (v : Z) : Z :=
  match k with O => 0 | S j => if Z.odd v then 0 else 1 + ctz_loop j (v / 2) end.
(** bits.h:89-99 CountLeadingZeroBits, 101-109 CountTrailingZeroBits. *)
Definition count_leading_zero_bits (w : nat) (v : Z) : Z :=
  if v =? 0 then Z.of_nat w else clz_loop w v.
Definition count_trailing_zero_bits (w : nat) (v : Z) : Z :=
  if v =? 0 then Z.of_nat w else ctz_loop w v.
(** bits.h:118-122 Log2Floor, 125-133 Log2Ceiling, 137-142 SafeLog2Ceiling. *)
Definition log2_floor (w : nat) (n : Z) : Z := Z.of_nat w - 1 - count_leading_zero_bits w n.
Definition log2_ceiling (w : nat) (n : Z) : Z :=
  (if n =? 0 then -1 else Z.of_nat w) - count_leading_zero_bits w (trunc (Z.of_nat w) (n - 1)).
Definition safe_log2_ceiling (w : nat) (n : Z) : Z := Z.max (log2_ceiling w n) 0.
(** bits.h:145-151 CheckedLog2: CHECK failure is [None]. *)
Definition checked_log2 (w : nat) (n : Z) : option Z :=
  if is_power_of_two n then Some (count_trailing_zero_bits w n) else None.

(** bits.cc:6-20 BitRev, portable branch: count = 63; rev = n; while ((n >>= 1) > 0) { rev <<= 1;
    rev |= n & 1; --count; } rev <<= count. [fuel] bounds the loop (64 iterations suffice). *)
Fixpoint bit_rev_loop (fuel : nat) (n rev count : Z) : Z :=
  match fuel with
  | O => 0
  | S f =>
      let n := Z.shiftr n 1 in
      if 0 <? n then bit_rev_loop f n (Z.lor (trunc 64 (Z.shiftl rev 1)) (Z.land n 1)) (count - 1)
      else trunc 64 (Z.shiftl rev count)
  end.
Definition bit_rev (n : Z) : Z := bit_rev_loop 64 n n 63.

(** bits.h:165-167 ReverseBitsLen(x, bit_len) = BitRev(x) >> (64 - bit_len). Shifting a 64-bit word by 64
    or more is undefined: [None]. *)
Definition reverse_bits_len (x : Z) (bit_len : Z) : option Z :=
  let s := trunc 64 (64 - bit_len) in
  if s <? 64 then Some (Z.shiftr (bit_rev x) s) else None.
