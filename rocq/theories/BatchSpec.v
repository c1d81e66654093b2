(** Vocabulary for the matrix transforms. *)
From Coq Require Import List Arith ZArith.
From Verif Require Import Field PolySpec BitsSpec.
Import ListNotations.
Open Scope fld_scope.

(** Matrices as lists of rows. *)
Definition is_matrix {K : fld} (rows cols : nat) (m : list (list K)) : Prop := length m = rows /\ Forall (fun r => length r = cols) m.
Definition entry {K : fld} (m : list (list K)) (i c : nat) : K := nth c (nth i m []) 0.
Definition column {K : fld} (m : list (list K)) (c : nat) : list K := map (fun r => nth c r 0) m.
Definition matrix {K : fld} (rows cols : nat) (f : nat -> nat -> K) : list (list K) := map (fun i => map (fun c => f i c) (seq 0 cols)) (seq 0 rows).
(** [P c] is the polynomial of degree below [rows] that takes the values of column [c] on 1, g, ..., g^(rows-1). *)
Definition column_polys {K : fld} (rows cols : nat) (g : K) (m : list (list K)) (P : nat -> list K) : Prop :=
  forall c, (c < cols)%nat -> (length (P c) <= rows)%nat /\ forall i, (i < rows)%nat -> eval (P c) (g ^ i) = entry m i c.
(** The position of row [i] among 2^k rows stored in bit-reversed order. *)
Definition bit_reversed (k i : nat) : nat := Z.to_nat (rev_bits k (Z.of_nat i)).
