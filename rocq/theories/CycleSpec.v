(** Specification of copy constraints, independent of the store. *)
From Coq Require Import List Arith Relations.
Import ListNotations.
Open Scope nat_scope.

(** Cells of a grid. *)
Definition in_grid (cols rows : nat) (l : nat * nat) : Prop := fst l < cols /\ snd l < rows.
Definition all_cells (cols rows : nat) : list (nat * nat) := list_prod (seq 0 cols) (seq 0 rows).

(** Two cells are connected by a list of pairs: the equivalence closure. *)
Definition connected (pairs : list (nat * nat * (nat * nat))) : nat * nat -> nat * nat -> Prop :=
  clos_refl_sym_trans _ (fun a b => In (a, b) pairs).

(** [l'] is reached from [l] by following a partial next function. *)
Inductive reaches (next : nat * nat -> option (nat * nat)) : nat * nat -> nat * nat -> Prop :=
  | reaches_refl : forall l, reaches next l l
  | reaches_step : forall l l' l'', next l = Some l' -> reaches next l' l'' -> reaches next l l''.
