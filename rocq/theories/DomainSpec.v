(** Vocabulary for the domain theorems. *)
From Coq Require Import List Arith.
From Verif Require Import Field.
Import ListNotations.
Open Scope fld_scope.

(** The points of a coset, and membership in it. *)
Definition coset_points {K : fld} (h g : K) (n : nat) : list K := map (fun i => h * g ^ i) (seq 0 n).
(** The Lagrange basis polynomial of the i-th of the points [xs], at tau: the product over the other points of
    (tau - x_j) / (x_i - x_j). *)
Definition lagrange_basis {K : fld} (xs : list K) (tau : K) (i : nat) : K :=
  fprod (map (fun j => (tau - nth j xs 0) * finv (nth i xs 0 - nth j xs 0))
             (filter (fun j => negb (Nat.eqb i j)) (seq 0 (length xs)))).
