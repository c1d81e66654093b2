(** Bit reversal, specified by its digits. *)
From Coq Require Import ZArith.
Open Scope Z_scope.
(** Reversing the lowest [k] bits of [x]. *)
Fixpoint rev_bits (k : nat) (x : Z) : Z :=
  match k with O => 0 | S m => (x mod 2) * 2 ^ Z.of_nat m + rev_bits m (x / 2) end.
