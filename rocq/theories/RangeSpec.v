(** Specification of ranges. *)
From Coq Require Import ZArith List Bool.
From Verif Require Import RangeModel.
Open Scope Z_scope.

(** The 8, 16, 32 and 64-bit integer types. *)
Definition integer_type (t : itype) : Prop := bits t = 8 \/ bits t = 16 \/ bits t = 32 \/ bits t = 64.
Definition of_type (t : itype) (v : Z) : Prop := lowest t <= v <= highest t.
(** [v] lies between the bounds. *)
Definition between (si ei : bool) (a b v : Z) : Prop :=
  (if si then a <= v else a < v) /\ (if ei then v <= b else v < b).
(** The number of integers between the bounds. *)
Definition count (si ei : bool) (a b : Z) : Z := Z.max 0 (b - a + (if si then 1 else 0) - (if ei then 0 else 1)).
