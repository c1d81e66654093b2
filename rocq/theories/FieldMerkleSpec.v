(** Specification vocabulary for the mixed matrix commitment scheme. *)
From Coq Require Import List Arith.
Import ListNotations.
Open Scope nat_scope.

(** The smallest e with n <= 2^e. *)
Definition is_log (e n : nat) : Prop := n <= Nat.pow 2 e /\ forall e', n <= Nat.pow 2 e' -> e <= e'.

(** The batches the scheme documents as acceptable: at least one matrix, no empty matrix, and two heights that round up to the same power of two are equal. *)
Definition acceptable {F : Type} (matrices : list (list (list F))) : Prop :=
  matrices <> [] /\ (forall m, In m matrices -> 1 <= length m) /\
  (forall m m' e, In m matrices -> In m' matrices -> is_log e (length m) -> is_log e (length m') -> length m = length m').

(** The row of a matrix of [rows] rows addressed by [index] in a batch whose tallest matrix has [max_rows]: the index, divided by two as many times as the padded tree of the matrix is shallower. *)
Definition addressed_row (max_rows rows index row : nat) : Prop :=
  exists e e', is_log e max_rows /\ is_log e' rows /\ row = index / Nat.pow 2 (e - e').

(** A collision: two different inputs of one of the functions with the same output. *)
Inductive call (P D : Type) := CallHash (v : list P) | CallCompress (a b : D).
Arguments CallHash {P D} v.
Arguments CallCompress {P D} a b.
Definition collide {P D : Type} (hash : list P -> D) (compress : D -> D -> D) (c c' : call P D) : Prop :=
  match c, c' with
  | CallHash v, CallHash v' => v <> v' /\ hash v = hash v'
  | CallCompress a b, CallCompress a' b' => (a, b) <> (a', b') /\ compress a b = compress a' b'
  | _, _ => False
  end.
