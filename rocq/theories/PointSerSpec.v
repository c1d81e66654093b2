(** What the encoding properties talk about. *)
From Coq Require Import ZArith Znumtheory List.
From Verif Require Import Field Zp SqrtSpec.
Open Scope fld_scope.

(** The point at infinity (represented as (0, 0)) or a point of the curve. *)
Definition curve_point {K : fld} (ca cb x y : K) : Prop := (x = 0 /\ y = 0) \/ on_curve ca cb x y.
(** The bits of the last byte that the encoding uses for its flags. *)
Definition flag_bits (legacy : bool) : Z := if legacy then 1 else 2.
(** SquareRoot does its job (C210, C211). *)
Definition square_root {K : fld} (sqrt : K -> option K) : Prop :=
  forall a, match sqrt a with Some x => x * x = a | None => ~ is_square a end.
