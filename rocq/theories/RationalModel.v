(** Model of math/base/rational_field.h: a numerator and a denominator over an inner field. *)
From Coq Require Import ZArith List Bool.
From Verif Require Import ParallelizeModel SemigroupModel Field.
Import ListNotations.
Open Scope fld_scope.

(** rational_field.h:198-200: numerator_ and denominator_. *)
Record rational (K : fld) : Type := { num : K; den : K }.
Arguments num {K} _. Arguments den {K} _. Arguments Build_rational {K} _ _.

Section Rational.
  Variable K : fld.
  Implicit Types x y : rational K.

  (** 23-27 explicit RationalField(numerator): the denominator defaults to one (line 200). *)
  Definition rf_of (n : K) : rational K := Build_rational n 1.
  (** 81 IsZero, 83-85 IsOne, 87-89 IsMinusOne. *)
  Definition rf_is_zero x : bool := feqb (num x) 0.
  Definition rf_is_one x : bool := feqb (num x) 1 || feqb (num x) (den x).
  Definition rf_is_minus_one x : bool := feqb (num x) (- (1)) || feqb (num x + den x) 0.
  (** 96-101 operator== and operator!=. *)
  Definition rf_eqb x y : bool := feqb (num x * den y) (num y * den x).
  (** 102-113 the ordering operators, for the order [ltb] of the inner field. *)
  Definition rf_ltb (ltb : K -> K -> bool) x y : bool := ltb (num x * den y) (num y * den x).
  (** 115 Evaluate: unwrap(numerator / denominator) aborts on a zero denominator. *)
  Definition rf_evaluate x : option K := if feqb (den x) 0 then None else Some (num x / den x).
  (** 118-121 Add, 143-146 Sub, 129-131 DoubleImpl, 155 Negate, 163-165 Mul, 173-175 SquareImpl. *)
  Definition rf_add x y := Build_rational (num x * den y + num y * den x) (den x * den y).
  Definition rf_sub x y := Build_rational (num x * den y - num y * den x) (den x * den y).
  Definition rf_double x := Build_rational (num x + num x) (den x).
  Definition rf_neg x := Build_rational (- num x) (den x).
  Definition rf_mul x y := Build_rational (num x * num y) (den x * den y).
  Definition rf_square x := Build_rational (num x * num x) (den x * den x).
  (** 123-128 AddInPlace, 148-153 SubInPlace, 167-171 MulInPlace: the numerator is assigned first. When
      [other] is the object itself ([alias]) the second assignment reads the updated object; the
      denominators are unaffected by the first one. *)
  Definition rf_add_in_place (alias : bool) x y :=
    let n := num x * den y + num y * den x in
    let x1 := Build_rational n (den x) in let y1 := if alias then x1 else y in
    Build_rational (num x1) (den x1 * den y1).
  Definition rf_sub_in_place (alias : bool) x y :=
    let n := num x * den y - num y * den x in
    let x1 := Build_rational n (den x) in let y1 := if alias then x1 else y in
    Build_rational (num x1) (den x1 * den y1).
  Definition rf_mul_in_place (alias : bool) x y :=
    let x1 := Build_rational (num x * num y) (den x) in let y1 := if alias then x1 else y in
    Build_rational (num x1) (den x1 * den y1).
  (** 183-189 Inverse, 191-198 InverseInPlace (swap): nullopt on zero. *)
  Definition rf_inverse x : option (rational K) :=
    if rf_is_zero x then None else Some (Build_rational (den x) (num x)).
  (** groups.h:40-48 operator/: Inverse of the divisor, then Mul; nullopt when it has none. *)
  Definition rf_div x y : option (rational K) :=
    match rf_inverse y with None => None | Some yi => Some (rf_mul x yi) end.

  (** 51-78 BatchEvaluate. Every chunk copies its denominators, inverts them in place
      (BatchInverseInPlaceSerial with the default coefficient one) and multiplies by the numerators.
      [coeff] is accepted and never used. [None]: returned false, or the CHECK aborted. *)
  Definition rf_chunk (l : list (rational K)) (call : Z * Z * Z) : option (list K) :=
    match call with
    | (_, start, len) =>
        let part := slice l (Z.to_nat start) (Z.to_nat len) in
        let dens := map den part in
        match do_batch_inverse 0 1 fmul (fun d : K => if feqb d 0 then None else Some (finv d))
                (fun d => feqb d 0) (fun d => feqb d 1) true dens dens 1 with
        | None => None
        | Some invs => Some (map (fun p => fst p * num (snd p)) (combine invs part))
        end
    end.
  Definition rf_batch_evaluate (threads : Z) (l : list (rational K)) (results : list K) (coeff : K)
    : option (list K) :=
    if negb (Nat.eqb (length l) (length results)) then None
    else all_chunks (map (rf_chunk l)
           (chunk_calls (Z.of_nat (length results))
              (num_elements_per_thread threads (Z.of_nat (length results)) None))).
End Rational.
