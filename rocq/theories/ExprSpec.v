(** What an expression means: its value, given the values of the columns at a rotation, of the challenges and of the selectors. *)
From Coq Require Import ZArith List.
From Verif Require Import Field ExprModel.
Import ListNotations.

(** An assignment of values to the leaves. *)
Record leaves (F : Type) : Type := { v_fixed : nat -> Z -> F; v_advice : nat -> Z -> F; v_instance : nat -> Z -> F; v_challenge : nat -> F; v_selector : nat -> F }.
Arguments v_fixed {F}. Arguments v_advice {F}. Arguments v_instance {F}. Arguments v_challenge {F}. Arguments v_selector {F}. Arguments Build_leaves {F}.

Section Value.
  Variable K : fld.
  Open Scope fld_scope.
  Fixpoint value (v : leaves K) (e : expr K) : K :=
    match e with
    | EConst c => c
    | ESelector i _ => v_selector v i
    | EFixed c r => v_fixed v c r
    | EAdvice c r => v_advice v c r
    | EInstance c r => v_instance v c r
    | EChallenge i => v_challenge v i
    | ENeg e => - value v e
    | ESum l r => value v l + value v r
    | EProd l r => value v l * value v r
    | EScaled e s => value v e * s
    end.
End Value.
Arguments value {K}.

(** The expression mentions no selector. *)
Fixpoint selector_free {F} (e : expr F) : Prop :=
  match e with
  | ESelector _ _ => False
  | EConst _ | EFixed _ _ | EAdvice _ _ | EInstance _ _ | EChallenge _ => True
  | ENeg e | EScaled e _ => selector_free e
  | ESum l r | EProd l r => selector_free l /\ selector_free r
  end.

(** The row that a rotation leads to from row [idx] in a table of [n] rows (indices wrap around). *)
Definition rotated_row (n : nat) (idx : nat) (rot : Z) : nat := Z.to_nat ((Z.of_nat idx + rot) mod Z.of_nat n).

(** The leaves read at row [idx] of a table with [n] rows (no selectors). *)
Definition row_leaves {K : fld} (t : table K) (n idx : nat) : leaves K :=
  {| v_fixed := fun c r => nth (rotated_row n idx r) (nth c (t_fixed t) []) f0;
     v_advice := fun c r => nth (rotated_row n idx r) (nth c (t_advice t) []) f0;
     v_instance := fun c r => nth (rotated_row n idx r) (nth c (t_instance t) []) f0;
     v_challenge := fun i => nth i (t_challenges t) f0;
     v_selector := fun _ => f0 |}.

(** Every leaf of the expression exists in a table of [n] rows, and its rotation stays within int32 from every row. *)
Fixpoint in_table {K : fld} (t : table K) (n : nat) (e : expr K) : Prop :=
  match e with
  | EConst _ => True
  | ESelector _ _ => False
  | EFixed c r => c < length (t_fixed t) /\ (- 2 ^ 30 <= r < 2 ^ 30)%Z
  | EAdvice c r => c < length (t_advice t) /\ (- 2 ^ 30 <= r < 2 ^ 30)%Z
  | EInstance c r => c < length (t_instance t) /\ (- 2 ^ 30 <= r < 2 ^ 30)%Z
  | EChallenge i => i < length (t_challenges t)
  | ENeg e | EScaled e _ => in_table t n e
  | ESum l r | EProd l r => in_table t n l /\ in_table t n r
  end.
Definition table_of (F : Type) (t : table F) (n : nat) : Prop :=
  Forall (fun c => length c = n) (t_fixed t) /\ Forall (fun c => length c = n) (t_advice t) /\ Forall (fun c => length c = n) (t_instance t).
Arguments table_of {F}.
