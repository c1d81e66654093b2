(** Specification of 32-bit Montgomery field elements: the word [a] represents the residue of the
    integer [x] modulo [p] when it is the canonical representative of x * 2^32. *)
From Coq Require Import ZArith.
Open Scope Z_scope.
Definition represents32 (p a x : Z) : Prop := 0 <= a < p /\ a = (x * 2 ^ 32) mod p.
