(** What the square-root properties talk about. *)
From Coq Require Import ZArith Znumtheory.
From Verif Require Import Field Zp.
Open Scope fld_scope.

(** [a] has a square root in the field. *)
Definition is_square {K : fld} (a : K) : Prop := exists y : K, y * y = a.
(** The canonical representative of [y] (ToBigInt) is even. *)
Definition even_rep (p : Z) (y : zp p) : bool := Z.even (zval p y).
(** (x, y) satisfies y^2 = x^3 + ca x + cb. *)
Definition on_curve {K : fld} (ca cb x y : K) : Prop := y * y = x * x * x + ca * x + cb.
(** [p] is 2^k + 1. *)
Definition fermat_number (p : Z) : Prop := exists k, (0 <= k)%Z /\ p = (2 ^ k + 1)%Z.
