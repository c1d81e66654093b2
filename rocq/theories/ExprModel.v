(** Model of the circuit expressions of tachyon/zk: zk/expressions/*.h and zk/plonk/expressions/*.h, zk/base/rotation.h, plonk/expressions/proving_evaluator.h (PE) and plonk/expressions/evaluator/selector_replacer.h.
    Only definitions. Unique pointers are plain values. The AIR expressions (kFirstRow ... kVariable), on which every evaluator aborts with NOTREACHED, are left out of the type.
    [None] is a failed CHECK, a NOTREACHED or an access out of bounds. *)
From Coq Require Import ZArith List Arith Bool.
From Verif Require Import Field.
Import ListNotations.

(** A column query: column index and rotation (zk/plonk/constraint_system/query.h; the index() used only by the verifier is in VerifyModel). A selector: index and is_simple (selector.h). *)
Inductive expr (F : Type) : Type :=
| EConst (c : F)
| ESelector (index : nat) (simple : bool)
| EFixed (column : nat) (rot : Z)
| EAdvice (column : nat) (rot : Z)
| EInstance (column : nat) (rot : Z)
| EChallenge (index : nat)
| ENeg (e : expr F)
| ESum (l r : expr F)
| EProd (l r : expr F)
| EScaled (e : expr F) (scale : F).
Arguments EConst {F}. Arguments ESelector {F}. Arguments EFixed {F}. Arguments EAdvice {F}. Arguments EInstance {F}. Arguments EChallenge {F}.
Arguments ENeg {F}. Arguments ESum {F}. Arguments EProd {F}. Arguments EScaled {F}.

(** operator-(left, right) of expressions, zk/expressions/expression_factory.h / expression.h: Sum(left, Negated(right)). *)
Definition esub {F} (l r : expr F) : expr F := ESum l (ENeg r).

(** Degree(): constant_expression.h, negated_expression.h, sum_expression.h, product_expression.h, scaled_expression.h, and 1 for the column queries and selectors, 0 for challenges. *)
Fixpoint degree {F} (e : expr F) : nat :=
  match e with
  | EConst _ | EChallenge _ => 0
  | ESelector _ _ | EFixed _ _ | EAdvice _ _ | EInstance _ _ => 1
  | ENeg e | EScaled e _ => degree e
  | ESum l r => Nat.max (degree l) (degree r)
  | EProd l r => degree l + degree r
  end.

(** SelectorReplacer::Evaluate, selector_replacer.h:31-77; the LOG(DFATAL) about simple selectors has no effect on the result and is dropped. *)
Fixpoint replace_selectors {F} (replacements : list (expr F)) (e : expr F) : option (expr F) :=
  match e with
  | ESelector i _ => nth_error replacements i
  | EConst _ | EFixed _ _ | EAdvice _ _ | EInstance _ _ | EChallenge _ => Some e
  | ENeg e => match replace_selectors replacements e with Some e' => Some (ENeg e') | None => None end
  | ESum l r => match replace_selectors replacements l, replace_selectors replacements r with
                | Some l', Some r' => Some (ESum l' r') | _, _ => None end
  | EProd l r => match replace_selectors replacements l, replace_selectors replacements r with
                 | Some l', Some r' => Some (EProd l' r') | _, _ => None end
  | EScaled e s => match replace_selectors replacements e with Some e' => Some (EScaled e' s) | None => None end
  end.

(** int32_t arithmetic of base::CheckedNumeric: [None] when the exact result does not fit (ValueOrDie aborts). *)
Definition checked32 (z : Z) : option Z := if ((- 2 ^ 31 <=? z) && (z <? 2 ^ 31))%Z then Some z else None.
(** Rotation::GetIndex, rotation.h:44-51: the product, the sum and the C++ remainder (truncated) are checked int32 operations. *)
Definition rotation_index (rot idx scale size : Z) : option Z :=
  if (size <=? 0)%Z then None else
  match checked32 (rot * scale) with
  | None => None
  | Some p => match checked32 (idx + p) with
              | None => None
              | Some s => let r := Z.rem s size in Some (if (r <? 0)%Z then (r + size)%Z else r)
              end
  end.

(** The columns and challenges an evaluator reads: MultiPhaseRefTable (plonk/base/multi_phase_ref_table.h). *)
Record table (F : Type) : Type := { t_fixed : list (list F); t_advice : list (list F); t_instance : list (list F); t_challenges : list F }.
Arguments t_fixed {F}. Arguments t_advice {F}. Arguments t_instance {F}. Arguments t_challenges {F}. Arguments Build_table {F}.

(** columns[column][row] *)
Definition read_cell {F} (cols : list (list F)) (column : nat) (row : Z) : option F :=
  if (row <? 0)%Z then None else
  match nth_error cols column with Some c => nth_error c (Z.to_nat row) | None => None end.
Definition read_query {F} (cols : list (list F)) (column : nat) (rot idx scale size : Z) : option F :=
  match rotation_index rot idx scale size with Some row => read_cell cols column row | None => None end.

(** ProvingEvaluator::Evaluate, PE:46-105. *)
Section Proving.
  Variable K : fld.
  Open Scope fld_scope.
  Fixpoint proving_evaluate (t : table K) (idx scale size : Z) (e : expr K) : option K :=
    match e with
    | EConst c => Some c
    | ESelector _ _ => None
    | EFixed c r => read_query (t_fixed t) c r idx scale size
    | EAdvice c r => read_query (t_advice t) c r idx scale size
    | EInstance c r => read_query (t_instance t) c r idx scale size
    | EChallenge i => nth_error (t_challenges t) i
    | ENeg e => match proving_evaluate t idx scale size e with Some v => Some (- v) | None => None end
    | ESum l r => match proving_evaluate t idx scale size l, proving_evaluate t idx scale size r with
                  | Some x, Some y => Some (x + y) | _, _ => None end
    | EProd l r => match proving_evaluate t idx scale size l, proving_evaluate t idx scale size r with
                   | Some x, Some y => Some (x * y) | _, _ => None end
    | EScaled e s => match proving_evaluate t idx scale size e with Some v => Some (v * s) | None => None end
    end.
End Proving.
Arguments proving_evaluate {K}.
