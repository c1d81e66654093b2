(** Specification of packed fields: every lane of a vector holds one element. *)
From Coq Require Import ZArith Arith.
From Verif Require Import SmallFieldSpec.
Open Scope Z_scope.
(** The first [n] lanes hold canonical residues. *)
Definition lanes_in (n : nat) (p : Z) (a : nat -> Z) : Prop := forall i, (i < n)%nat -> 0 <= a i < p.
(** The first [n] lanes are the residues of the integers [x 0], [x 1], ... *)
Definition lanes_are (n : nat) (p : Z) (a x : nat -> Z) : Prop := forall i, (i < n)%nat -> a i = x i mod p.
(** The first [n] lanes represent the integers [x 0], [x 1], ... in Montgomery form. *)
Definition lanes_represent (n : nat) (p : Z) (a x : nat -> Z) : Prop := forall i, (i < n)%nat -> represents32 p (a i) (x i).
