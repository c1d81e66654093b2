(** Reading a gate polynomial before and after selector compression. *)
From Coq Require Import ZArith List Arith.
From Verif Require Import Field ExprModel ExprSpec.
Import ListNotations.

(** The flags of the selectors in an expression agree with their kind, and their index is in range. *)
Fixpoint kinds_ok {F} (simple : nat -> bool) (num : nat) (e : expr F) : Prop :=
  match e with
  | ESelector i s => s = simple i /\ i < num
  | EConst _ | EFixed _ _ | EAdvice _ _ | EInstance _ _ | EChallenge _ => True
  | ENeg e | EScaled e _ => kinds_ok simple num e
  | ESum l r | EProd l r => kinds_ok simple num l /\ kinds_ok simple num r
  end.
(** No simple selector occurs. *)
Fixpoint complex_only {F} (e : expr F) : Prop :=
  match e with
  | ESelector _ s => s = false
  | EConst _ | EFixed _ _ | EAdvice _ _ | EInstance _ _ | EChallenge _ => True
  | ENeg e | EScaled e _ => complex_only e
  | ESum l r | EProd l r => complex_only l /\ complex_only r
  end.
(** The polynomial of a gate: no simple selector, or one simple selector times such an expression, on either side. *)
Definition gate_form {F} (e : expr F) : Prop :=
  complex_only e \/ (exists i body, e = EProd (ESelector i true) body /\ complex_only body) \/ (exists i body, e = EProd body (ESelector i true) /\ complex_only body).

Section Read.
  Variable K : fld.
  Open Scope fld_scope.
  (** The leaves at a row, with selector [i] read from the table of selectors as 1 or 0. *)
  Definition with_selectors (v : leaves K) (selectors : list (list bool)) (row : nat) : leaves K :=
    {| v_fixed := v_fixed v; v_advice := v_advice v; v_instance := v_instance v; v_challenge := v_challenge v;
       v_selector := fun i => if nth row (nth i selectors []) false then 1 else 0 |}.
  (** The new fixed columns, from index [num_fixed] on, hold [cols] at this row. *)
  Definition holds_columns (v : leaves K) (num_fixed : nat) (cols : list (list K)) (row : nat) : Prop :=
    forall k, k < length cols -> v_fixed v (num_fixed + k) 0%Z = nth row (nth k cols []) 0.
End Read.
Arguments with_selectors {K}. Arguments holds_columns {K}.
