(** Model of math/polynomials/multivariate/{multivariate_sparse_coefficients,multivariate_polynomial_ops}.h. Only definitions.
    SC is multivariate_sparse_coefficients.h and PO multivariate_polynomial_ops.h.
    Outcomes: [Abort] is a failed CHECK, [Undef] is undefined behaviour (a read outside a vector, an indeterminate value). *)
From Coq Require Import ZArith NArith List Bool.
From Verif Require Import Field.
Import ListNotations.

Inductive out (A : Type) : Type := Ret (a : A) | Abort | Undef.
Arguments Ret {A} a. Arguments Abort {A}. Arguments Undef {A}.
Definition bind {A B} (o : out A) (f : A -> out B) : out B :=
  match o with Ret a => f a | Abort => Abort | Undef => Undef end.
Fixpoint fold_out {A B} (f : B -> A -> out B) (l : list A) (b : B) : out B :=
  match l with [] => Ret b | x :: r => bind (f b x) (fold_out f r) end.
Fixpoint map_out {A B} (f : A -> out B) (l : list A) : out (list B) :=
  match l with [] => Ret [] | x :: r => bind (f x) (fun y => bind (map_out f r) (fun ys => Ret (y :: ys))) end.
Fixpoint last_opt {A} (l : list A) : option A :=
  match l with [] => None | [x] => Some x | _ :: r => last_opt r end.

(** SC:36-38 Element: variable and exponent (size_t, below 2^64). *)
Notation elem := (N * N)%type.
(** SC:40-52 Element::operator<. *)
Definition el_lt (a b : elem) : bool :=
  if negb (N.eqb (snd a) 0) && negb (N.eqb (snd b) 0) then
    if negb (N.eqb (fst a) (fst b)) then N.ltb (fst a) (fst b) else N.ltb (snd a) (snd b)
  else N.ltb (snd a) (snd b).
(** SC:53-55 Element::operator==. *)
Definition el_eqb (a b : elem) : bool := N.eqb (fst a) (fst b) && N.eqb (snd a) (snd b).
(** SC:61-62 Literal. *)
Notation lit := (list (N * N)).
Fixpoint els_eqb (a b : lit) : bool :=
  match a, b with
  | [], [] => true
  | x :: a', y :: b' => el_eqb x y && els_eqb a' b'
  | _, _ => false
  end.
(** SC:83-89 Literal::operator<; back() of an empty vector is undefined. *)
Definition lit_lt (a b : lit) : out bool :=
  match last_opt a, last_opt b with
  | Some x, Some y => Ret (if el_eqb x y then Nat.ltb (length a) (length b) else el_lt x y)
  | _, _ => Undef
  end.
(** SC:99-104 Literal::Degree: std::accumulate starts from the int 0, so that every partial sum is converted to a 32 bit int. *)
Definition to_int (z : Z) : Z := ((z + 2 ^ 31) mod 2 ^ 32 - 2 ^ 31)%Z.
Definition to_size (z : Z) : Z := (z mod 2 ^ 64)%Z.
Definition lit_degree (l : lit) : Z :=
  to_size (fold_left (fun acc e => to_int (to_size (to_size acc + Z.of_N (snd e)))) l 0%Z).
(** SC:90-97 Literal::operator== and operator!=. *)
Definition lit_eqb (a b : lit) : bool := (Z.eqb (lit_degree a) 0 && Z.eqb (lit_degree b) 0) || els_eqb a b.
Definition lit_neqb (a b : lit) : bool := (negb (Z.eqb (lit_degree a) 0) || negb (Z.eqb (lit_degree b) 0)) && negb (els_eqb a b).
(** SC:74 is_sorted of the elements: no element is less than the one before it. *)
Fixpoint els_sorted (l : lit) : bool :=
  match l with
  | x :: (y :: _) as r => negb (el_lt y x) && els_sorted r
  | _ => true
  end.

Section Sparse.
  Variable K : fld.
  (** operator< of the coefficient field. *)
  Variable clt : K -> K -> bool.
  (** base::ParallelizeMap splits a vector into consecutive chunks. *)
  Variable chunks : forall A : Type, list A -> list (list A).
  Variable max_degree : Z.
  Open Scope fld_scope.

  (** SC:137-139 Term. *)
  Notation term := (list (N * N) * K)%type.
  (** SC:143-149 Term::operator<. *)
  Definition term_lt (a b : term) : out bool :=
    if lit_neqb (fst a) (fst b) then lit_lt (fst a) (fst b) else Ret (clt (snd a) (snd b)).
  (** SC:176 is_sorted of the terms. *)
  Fixpoint terms_sorted (l : list term) : out bool :=
    match l with
    | x :: (y :: _) as r => bind (term_lt y x) (fun c => if c then Ret false else terms_sorted r)
    | _ => Ret true
    end.
  (** SC:141 operator-. *)
  Definition term_neg (t : term) : term := (fst t, - snd t).
  (** SC:159 Term::Constant. *)
  Definition term_constant (c : K) : term := ([(0, 0)%N], c).

  (** SC:127-134 Literal::EvaluateSerial. *)
  Definition lit_serial (pts : list K) (l : lit) : out K :=
    fold_out (fun acc (e : elem) =>
      match nth_error pts (N.to_nat (fst e)) with
      | Some x => Ret (acc * x ^ N.to_nat (snd e))
      | None => Undef
      end) l 1.
  (** SC:106-113 Literal::Evaluate. *)
  Definition lit_evaluate (pts : list K) (l : lit) : out K :=
    bind (map_out (lit_serial pts) (chunks _ l)) (fun rs => Ret (fold_left fmul rs 1)).
  (** SC:341-347 EvaluateSerial. *)
  Definition terms_serial (pts : list K) (l : list term) : out K :=
    fold_out (fun acc (t : term) => bind (lit_evaluate pts (fst t)) (fun v => Ret (acc + snd t * v))) l 0.

  (** SC:349-350: num_vars_ (None: indeterminate) and terms_. *)
  Record poly : Type := mkpoly { num_vars : option nat; terms : list term }.
  (** SC:258 IsZero. *)
  Definition is_zero (p : poly) : bool := match terms p with [] => true | _ => false end.
  (** SC:219-221 IsConstant and 265-268 Degree; back() of an empty vector is undefined. *)
  Definition is_constant (ts : list term) : bool :=
    match ts with [t] => Z.eqb (lit_degree (fst t)) 0 | _ => false end.
  Definition degree (ts : list term) : out Z :=
    if is_constant ts then Ret 0%Z
    else match last_opt ts with Some t => Ret (lit_degree (fst t)) | None => Undef end.
  (** SC:165-172 constructors and 174-184 CreateChecked. *)
  Definition create (n : nat) (ts : list term) : out poly :=
    bind (degree ts) (fun d => if Z.leb d max_degree then Ret (mkpoly (Some n) ts) else Abort).
  Definition create_checked (n : nat) (ts : list term) : out poly :=
    bind (terms_sorted ts) (fun b => if b then create n ts else Abort).
  (** SC:270-281 Evaluate. *)
  Definition evaluate (p : poly) (pts : list K) : out K :=
    match num_vars p with
    | None => Undef
    | Some n =>
        if Nat.leb (length pts) n then
          match terms p with
          | [] => Ret 0
          | ts => bind (map_out (terms_serial pts) (chunks _ ts)) (fun rs => Ret (fold_left fadd rs 0))
          end
        else Abort
    end.

  (** SC:303-324 Compact: the merging loop (the term at write_itr, then the rest), the constant terms, the zero coefficients.
      [terms_.begin() + 1] of an empty vector is undefined. *)
  Fixpoint merge_loop (w : term) (rest : list term) : list term :=
    match rest with
    | [] => [w]
    | r :: rest' =>
        if lit_eqb (fst w) (fst r) then merge_loop (fst w, snd w + snd r) rest'
        else w :: merge_loop r rest'
    end.
  Fixpoint take_constants (c : K) (ts : list term) : K * list term :=
    match ts with
    | t :: r => if Z.eqb (lit_degree (fst t)) 0 then take_constants (c + snd t) r else (c, ts)
    | [] => (c, [])
    end.
  Definition compact (ts : list term) : out (list term) :=
    match ts with
    | [] => Undef
    | w :: rest =>
        let '(c, r) := take_constants 0 (merge_loop w rest) in
        Ret (filter (fun t => negb (feqb (snd t) 0)) (term_constant c :: r))
    end.

  (** PO:102-150 DoAdd, the loop. *)
  Definition sgn (neg : bool) (t : term) : term := if neg then term_neg t else t.
  Definition cons_out (t : term) (o : out (list term)) : out (list term) := bind o (fun l => Ret (t :: l)).
  Fixpoint add_loop (neg : bool) (a : list term) : list term -> out (list term) :=
    fix on_b (b : list term) : out (list term) :=
      match a, b with
      | [], [] => Ret []
      | [], tb :: b' => cons_out (sgn neg tb) (on_b b')
      | ta :: a', [] => cons_out ta (add_loop neg a' [])
      | ta :: a', tb :: b' =>
          bind (lit_lt (fst ta) (fst tb)) (fun lt =>
          if lt then cons_out ta (add_loop neg a' b)
          else
            bind (lit_lt (fst tb) (fst ta)) (fun gt =>
            if gt then cons_out (sgn neg tb) (on_b b')
            else
              let coeff := if neg then snd ta - snd tb else snd ta + snd tb in
              if negb (feqb coeff 0) then cons_out (fst ta, coeff) (add_loop neg a' b')
              else add_loop neg a' b'))
      end.
  (** PO:152-153: the result's terms, compacted. *)
  Definition do_add (neg : bool) (a b : list term) : out (list term) := bind (add_loop neg a b) compact.
  (** PO:75-87 Negate (through the constructor, SC:169-172) and 89-99 NegateInPlace. *)
  Definition negate (p : poly) : out poly :=
    match num_vars p with
    | Some n => if is_zero p then Ret p else create n (map term_neg (terms p))
    | None => if is_zero p then Ret p else Undef
    end.
  Definition negate_in_place (p : poly) : poly := mkpoly (num_vars p) (map term_neg (terms p)).
  (** PO:25-36, 50-61 Add and Sub: the result is default-initialised, which leaves num_vars_ indeterminate. *)
  Definition add (neg : bool) (a b : poly) : out poly :=
    if is_zero a then (if neg then negate b else Ret b)
    else if is_zero b then Ret a
    else bind (do_add neg (terms a) (terms b)) (fun ts => Ret (mkpoly None ts)).
  (** PO:38-48, 63-73 AddInPlace and SubInPlace. *)
  Definition add_in_place (neg : bool) (a b : poly) : out poly :=
    if is_zero a then (if neg then negate b else Ret b)
    else if is_zero b then Ret a
    else bind (do_add neg (terms a) (terms b)) (fun ts => Ret (mkpoly (num_vars a) ts)).

  (** SC:330-339 GetCoefficient: std::lower_bound returns the first term whose literal is not less than the given one (if the terms
      whose literal is less come first). *)
  Fixpoint lower_bound (ts : list term) (l : lit) : out (option term) :=
    match ts with
    | [] => Ret None
    | t :: r => bind (lit_lt (fst t) l) (fun c => if c then lower_bound r l else Ret (Some t))
    end.
  (** SC:247-251 operator[]. *)
  Definition coefficient_at (ts : list term) (l : lit) : out K :=
    bind (lower_bound ts l) (fun o =>
    match o with Some t => if lit_eqb (fst t) l then Ret (snd t) else Ret 0 | None => Ret 0 end).
End Sparse.
