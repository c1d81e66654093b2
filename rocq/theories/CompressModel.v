(** Model of ConstraintSystem::CompressSelectors (tachyon/zk/plonk/constraint_system/constraint_system.h) on the gates, with ExtractSimpleSelector (expressions/evaluator/simple_selector_extractor.h).
    Only definitions. Lookups and shuffles are replaced by the same ReplaceSelectors calls and are left out. [None] is a failed CHECK or an access out of bounds. *)
From Coq Require Import ZArith List Arith Bool.
From Verif Require Import Field ExprModel SelectorModel.
Import ListNotations.

(** SimpleSelectorExtractor: Pick aborts when both sides have a simple selector. *)
Definition pick_selector (l r : option (option nat)) : option (option nat) :=
  match l, r with
  | Some (Some _), Some (Some _) => None
  | Some (Some i), Some None => Some (Some i)
  | Some None, Some o => Some o
  | _, _ => None
  end.
Fixpoint extract_simple {F} (e : expr F) : option (option nat) :=
  match e with
  | ESelector i true => Some (Some i)
  | EConst _ | ESelector _ false | EFixed _ _ | EAdvice _ _ | EInstance _ _ | EChallenge _ => Some None
  | ENeg e | EScaled e _ => extract_simple e
  | ESum l r | EProd l r => pick_selector (extract_simple l) (extract_simple r)
  end.

Definition set_at {A} (l : list A) (i : nat) (x : A) : list A := firstn i l ++ x :: skipn (S i) l.

(** The degrees of the selectors: the largest degree of a gate polynomial that mentions them. *)
Fixpoint selector_degrees {F} (polys : list (expr F)) (degrees : list nat) : option (list nat) :=
  match polys with
  | [] => Some degrees
  | e :: r => match extract_simple e with
              | None => None
              | Some None => selector_degrees r degrees
              | Some (Some i) => match nth_error degrees i with
                                 | None => None
                                 | Some d => selector_degrees r (set_at degrees i (Nat.max d (degree e)))
                                 end
              end
  end.

(** ComputeDegree: [other] is the largest of the required degrees of the permutation, lookup and shuffle arguments and of minimum_degree_. *)
Definition compute_degree {F} (other : nat) (polys : list (expr F)) : nat := fold_right Nat.max other (map degree polys).

Fixpoint fill {F} (asg : list (nat * nat * expr F)) (reps : list (option (expr F))) : list (option (expr F)) :=
  match asg with [] => reps | (i, _, e) :: r => fill r (set_at reps i (Some e)) end.
Fixpoint all_some {A} (l : list (option A)) : option (list A) :=
  match l with [] => Some [] | Some x :: r => match all_some r with Some y => Some (x :: y) | None => None end | None :: _ => None end.

Fixpoint map_all {A B} (f : A -> option B) (l : list A) : option (list B) :=
  match l with [] => Some [] | x :: r => match f x, map_all f r with Some y, Some z => Some (y :: z) | _, _ => None end end.

(** CompressSelectors: [polys] are the polynomials of all gates, in order. The result: the columns, and the new polynomials. An unset base::Ref that is used is the [None] of [all_some]. *)
Definition compress_selectors {K : fld} (num_fixed num_selectors other : nat) (selectors : list (list bool)) (polys : list (expr K)) : option (list (list K) * list (expr K)) :=
  if negb (length selectors =? num_selectors) then None else
  match selector_degrees polys (repeat 0 (length selectors)) with
  | None => None
  | Some degrees =>
      match process (fun k => EFixed (num_fixed + k) 0%Z : expr K) selectors degrees (compute_degree other polys) with
      | None => None
      | Some (cols, asg, _) =>
          match all_some (fill asg (repeat None (length asg))) with
          | None => None
          | Some reps => match map_all (replace_selectors reps) polys with Some polys' => Some (cols, polys') | None => None end
          end
      end
  end.
