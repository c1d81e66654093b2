(** Model of base::Range for integer types (tachyon/base/range.h).  Floating-point and 128-bit instantiations are
    not modelled. *)
From Coq Require Import ZArith List Bool.
Import ListNotations.
Open Scope Z_scope.

(** An integer type: its number of bits and whether it is signed. *)
Record itype := IT { bits : Z; signed : bool }.
Definition lowest (t : itype) : Z := if signed t then - 2 ^ (bits t - 1) else 0.
Definition highest (t : itype) : Z := if signed t then 2 ^ (bits t - 1) - 1 else 2 ^ bits t - 1.
(** The type arithmetic is carried out in after the integral promotions: int for anything narrower. *)
Definition promoted (t : itype) : itype := if bits t <? 32 then IT 32 true else t.
(** The result of an arithmetic operation: signed overflow is undefined, unsigned arithmetic wraps. *)
Definition arith (t : itype) (v : Z) : option Z :=
  if signed t then if (lowest t <=? v) && (v <=? highest t) then Some v else None else Some (v mod 2 ^ bits t).
(** Conversion to size_t. *)
Definition to_size (v : Z) : Z := v mod 2 ^ 64.
(** Conversion to [t]: modulo 2^bits, into the range of [t]. *)
Definition convert (t : itype) (v : Z) : Z := lowest t + (v - lowest t) mod 2 ^ bits t.

(** range.h:113-114 the bounds; the inclusiveness flags are template arguments. *)
Record range := Range { rfrom : Z; rto : Z }.
(** range.h:116-131 the constructors. *)
Definition all (t : itype) : range := Range (lowest t) (highest t).
Definition from_ (t : itype) (v : Z) : range := Range v (highest t).
Definition until (t : itype) (v : Z) : range := Range (lowest t) v.
(** range.h:149-151 Intersect. *)
Definition intersect (a b : range) : range := Range (Z.max (rfrom a) (rfrom b)) (Z.min (rto a) (rto b)).
(** range.h:170-176 IsEmpty. *)
Definition is_empty (si ei : bool) (r : range) : bool := if si && ei then rto r <? rfrom r else rto r <=? rfrom r.
(** range.h:155-166 GetSize. *)
Definition get_size (t : itype) (si ei : bool) (r : range) : option Z :=
  if is_empty si ei r then Some 0 else
  let p := promoted t in
  match arith p (rto r - rfrom r) with
  | None => None
  | Some d =>
    if si && ei then option_map to_size (arith p (d + 1))
    else if xorb si ei then Some (to_size d)
    else option_map to_size (arith p (d - 1))
  end.
(** range.h:179-189 Contains. *)
Definition contains (si ei : bool) (r : range) (v : Z) : bool :=
  if si && ei then (rfrom r <=? v) && (v <=? rto r)
  else if si && negb ei then (rfrom r <=? v) && (v <? rto r)
  else if negb si && ei then (rfrom r <? v) && (v <=? rto r)
  else (rfrom r <? v) && (v <? rto r).
(** range.h:133-147 begin, end; [None] is a signed overflow. *)
Definition rbegin (t : itype) (si : bool) (r : range) : option Z :=
  if si then Some (rfrom r) else option_map (convert t) (arith (promoted t) (rfrom r + 1)).
Definition rend (t : itype) (ei : bool) (r : range) : option Z :=
  if ei then option_map (convert t) (arith (promoted t) (rto r + 1)) else Some (rto r).
(** range.h:58-61 operator++ of the iterator. *)
Definition next (t : itype) (v : Z) : option Z := if bits t <? 32 then Some (convert t (v + 1)) else arith t (v + 1).
(** A range-based for loop over the range: the values seen, [None] if it overflows or does not end in [fuel] steps. *)
Fixpoint loop (t : itype) (fuel : nat) (cur stop : Z) : option (list Z) :=
  if cur =? stop then Some [] else
  match fuel with
  | O => None
  | S f => match next t cur with Some n => option_map (cons cur) (loop t f n stop) | None => None end
  end.
Definition iterate (t : itype) (fuel : nat) (si ei : bool) (r : range) : option (list Z) :=
  match rbegin t si r, rend t ei r with Some b, Some e => loop t fuel b e | _, _ => None end.
