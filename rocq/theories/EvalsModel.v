(** Model of math/polynomials/univariate/univariate_evaluations.h and univariate_evaluations_ops.h. Only definitions.
    An evaluation vector is the list of its values. An outer [None] is a failed CHECK, an inner [None] std::nullopt.
    The OpenMP loops write one element per iteration from the operands at the same index, so they are modelled as
    maps. [md] is MaxDegree. *)
From Coq Require Import ZArith List Bool.
From Verif Require Import Field.
Import ListNotations.
Open Scope fld_scope.

Section Evals.
  Context {K : fld}.
  Notation evals := (list K).
  (** univariate_evaluations.h:99-102 Degree, 50-57 the constructors *)
  Definition ev_degree (e : evals) : nat := match e with [] => O | _ => (length e - 1)%nat end.
  Definition ev_make (md : Z) (e : evals) : option evals := if (Z.of_nat (ev_degree e) <=? md)%Z then Some e else None.
  (** :106-110 IsZero, 112-116 IsOne *)
  Definition ev_is_zero (e : evals) : bool := match e with [] => true | _ => forallb (fun x => feqb x 0) e end.
  Definition ev_is_one (e : evals) : bool := match e with [] => false | _ => forallb (fun x => feqb x 1) e end.
  (** :118-126 operator==; the comparison of two std::vectors *)
  Fixpoint vec_eqb (a b : evals) : bool :=
    match a, b with
    | [], [] => true
    | x :: a, y :: b => feqb x y && vec_eqb a b
    | _, _ => false
    end.
  Definition ev_eqb (a b : evals) : bool :=
    match a, b with
    | [], _ => ev_is_zero b
    | _, [] => ev_is_zero a
    | _, _ => vec_eqb a b
    end.
  (** :145-152 operator[] const: zero beyond the end *)
  Definition ev_at (e : evals) (i : nat) : K := nth i e 0.

  Definition zip (f : K -> K -> K) (a b : evals) : evals := map (fun p => f (fst p) (snd p)) (combine a b).
  (** univariate_evaluations_ops.h:99-109 Negate, 111-122 NegateInPlace *)
  Definition ev_negate (md : Z) (a : evals) : option evals := match a with [] => Some a | _ => ev_make md (map fopp a) end.
  Definition ev_negate_in_place (a : evals) : evals := match a with [] => a | _ => map fopp a end.
  (** :26-43 Add, 45-61 AddInPlace *)
  Definition ev_add (md : Z) (a b : evals) : option evals :=
    match a, b with
    | [], _ => Some b
    | _, [] => Some a
    | _, _ => if Nat.eqb (length a) (length b) then ev_make md (zip fadd a b) else None
    end.
  Definition ev_add_in_place (a b : evals) : option evals :=
    match a, b with
    | [], _ => Some b
    | _, [] => Some a
    | _, _ => if Nat.eqb (length a) (length b) then Some (zip fadd a b) else None
    end.
  (** :63-80 Sub, 82-97 SubInPlace *)
  Definition ev_sub (md : Z) (a b : evals) : option evals :=
    match a, b with
    | [], _ => ev_negate md b
    | _, [] => Some a
    | _, _ => if Nat.eqb (length a) (length b) then ev_make md (zip fsub a b) else None
    end.
  Definition ev_sub_in_place (md : Z) (a b : evals) : option evals :=
    match a, b with
    | [], _ => ev_negate md b
    | _, [] => Some a
    | _, _ => if Nat.eqb (length a) (length b) then Some (zip fsub a b) else None
    end.
  (** :124-137 Mul, 139-156 MulInPlace *)
  Definition ev_mul (md : Z) (a b : evals) : option evals :=
    match a, b with
    | [], _ => Some []
    | _, [] => Some []
    | _, _ => if Nat.eqb (length a) (length b) then ev_make md (zip fmul a b) else None
    end.
  Definition ev_mul_in_place (a b : evals) : option evals :=
    match a, b with
    | [], _ => Some a
    | _, [] => Some []
    | _, _ => if Nat.eqb (length a) (length b) then Some (zip fmul a b) else None
    end.
  (** :158-173 Mul by a scalar, 175-185 MulInPlace *)
  Definition ev_scale (md : Z) (a : evals) (s : K) : option evals :=
    match a with
    | [] => Some []
    | _ => if feqb s 0 then Some [] else if feqb s 1 then Some a else ev_make md (map (fun x => x * s) a)
    end.
  Definition ev_scale_in_place (a : evals) (s : K) : evals :=
    match a with [] => a | _ => if feqb s 1 then a else map (fun x => x * s) a end.
  (** :187-222 Div: the vector of the successful quotients, [check_valid] *)
  Definition ev_div (md : Z) (a b : evals) : option (option evals) :=
    match b with
    | [] => Some None
    | _ => match a with
           | [] => Some (Some a)
           | _ => if negb (Nat.eqb (length a) (length b)) then Some None
                  else if forallb (fun y => negb (feqb y 0)) b then option_map Some (ev_make md (zip fdiv a b)) else Some None
           end
    end.
  (** :224-253 DivInPlace: the operand after the call (a failed /= leaves its element alone) and whether the call
      succeeded. *)
  Definition ev_div_in_place (a b : evals) : evals * bool :=
    match b with
    | [] => (a, false)
    | _ => match a with
           | [] => (a, true)
           | _ => if negb (Nat.eqb (length a) (length b)) then (a, false)
                  else (zip (fun x y => if feqb y 0 then x else x / y) a b, forallb (fun y => negb (feqb y 0)) b)
           end
    end.
  (** :255-260 Div by a scalar, 262-268 DivInPlace *)
  Definition ev_div_scalar (md : Z) (a : evals) (s : K) : option (option evals) :=
    if feqb s 0 then Some None else option_map Some (ev_scale md a (finv s)).
  Definition ev_div_scalar_in_place (a : evals) (s : K) : evals * bool :=
    if feqb s 0 then (a, false) else (ev_scale_in_place a (finv s), true).
End Evals.
