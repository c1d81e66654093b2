(** Vocabulary for the theorems about the log-derivative lookup and the shuffle. *)
From Coq Require Import ZArith List Arith Permutation Sorted.
From Verif Require Import Field GrandProductModel GrandProductSpec LogDerivModel.
Import ListNotations.
Open Scope fld_scope.

(** The values of some columns on the first [u] rows. *)
Definition values_of {K : fld} (u : nat) (cols : list (nat -> K)) : list K := flat_map (fun f => map f (seq 0 u)) cols.

(** How often a value occurs in a list. *)
Definition occurrences {K : fld} (l : list K) (v : K) : nat := length (filter (fun x => feqb x v) l).

(** A sort of (row, key) entries by key; entries with equal keys may come in any order. *)
Definition sorts_by_key (sort : list (nat * Z) -> list (nat * Z)) : Prop :=
  forall l, Permutation l (sort l) /\ StronglySorted (fun x y => (snd x <= snd y)%Z) (sort l).

(** With the challenge β some grand sum makes every constraint of the log-derivative lookup vanish on every row. *)
Definition log_deriv_accepts {K : fld} (n u : nat) (inputs : list (nat -> K)) (table m : nat -> K) (beta : K) : Prop :=
  exists s : nat -> K, forall j, (j < n)%nat ->
    evaluator_terms (first_row j) (last_row u j) (1 - (last_row u j + blind_row u j)) (s j) (s (next_row n j)) (m j) (table j + beta) (map (fun f => f j + beta) inputs) = [0; 0; 0].

(** With the challenge γ some grand product makes every expression of the shuffle verifier vanish on every row. *)
Definition shuffle_accepts {K : fld} (n u : nat) (a s : nat -> K) (gamma : K) : Prop :=
  exists z : nat -> K, forall j, (j < n)%nat ->
    shuffle_verifier_terms (first_row j) (last_row u j) (blind_row u j) (z j) (z (next_row n j)) (a j) (s j) gamma = [0; 0; 0].
