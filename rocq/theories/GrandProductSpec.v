(** Vocabulary for the argument theorems. *)
From Coq Require Import List Arith.
From Verif Require Import Field GrandProductModel.
Import ListNotations.
Open Scope fld_scope.

(** The values at row [j] of the polynomials that are 1 on the first row, on the row [u] after the usable rows, on the rows after that, and 0 on the others. *)
Definition first_row {K : fld} (j : nat) : K := if Nat.eqb j 0 then 1 else 0.
Definition last_row {K : fld} (u j : nat) : K := if Nat.eqb j u then 1 else 0.
Definition blind_row {K : fld} (u j : nat) : K := if Nat.ltb u j then 1 else 0.
(** Rows wrap around the domain of size [n]. *)
Definition next_row (n j : nat) : nat := ((j + 1) mod n)%nat.
Definition prev_row (n j : nat) : nat := ((j + n - 1) mod n)%nat.

(** Row [j] of a table of columns. *)
Definition row_of {K : fld} (t : list (list K)) (j : nat) : list K := map (fun col => cell col j) t.

(** With the challenges (β, γ) some grand product makes every expression of the lookup verifier vanish on every row. *)
Definition lookup_accepts {K : fld} (n u : nat) (a' s' a s : nat -> K) (p : K * K) : Prop :=
  exists z : nat -> K, forall j, (j < n)%nat ->
    lookup_verifier_evals (first_row j) (last_row u j) (blind_row u j) (fst p) (snd p) (z j) (z (next_row n j)) (a' j) (a' (prev_row n j)) (s' j) (a j) (s j) = [0; 0; 0; 0; 0].
(** With the challenges (β, γ) some grand products, one per chunk of columns, make every expression of the permutation verifier vanish on every row. *)
Definition permutation_accepts {K : fld} (n u len : nat) (delta omega : K) (values perms : list (list K)) (p : K * K) : Prop :=
  exists zs : list (list K), length zs = Nat.div (length values + len - 1) len /\
    forall j, (j < n)%nat ->
      Forall (fun e => e = 0)
        (permutation_verifier_evals (first_row j) (last_row u j) (blind_row u j) delta (omega ^ j) (fst p) (snd p) len
           (row_of zs j) (row_of zs (next_row n j)) (row_of zs ((j + u) mod n)) (row_of values j) (row_of perms j)).
