(** Specification of prime-field elements in Montgomery form: an N-limb vector [a] represents the
    residue of the integer [x] modulo [p] when it is the canonical (smaller than p) representative of
    x * 2^(64N). *)
From Coq Require Import ZArith List.
From Verif Require Import BigIntSpec.
Open Scope Z_scope.

Definition represents (n : nat) (p : Z) (a : list Z) (x : Z) : Prop :=
  limbs64 n a /\ val64 a < p /\ val64 a = (x * 2 ^ (64 * Z.of_nat n)) mod p.
