(** Polynomials as their coefficient sequences: the vocabulary the polynomial theorems are stated in. *)
From Coq Require Import ZArith List Arith Sorted.
From Verif Require Import Field.
Import ListNotations.
Open Scope fld_scope.

Section Spec.
  Context {K : fld}.
  (** The coefficient of X^i of a dense polynomial (0 beyond the vector). *)
  Definition coeff (l : list K) (i : nat) : K := nth i l 0.
  (** No vector with a zero at its end: such vectors are equal exactly when the polynomials are. *)
  Definition canonical (l : list K) : Prop := last l 1 <> 0.
  (** [l] is the canonical vector of the polynomial with coefficients [f]. *)
  Definition represents (l : list K) (f : nat -> K) : Prop := canonical l /\ forall i, coeff l i = f i.
  (** The coefficient of X^k in a product. *)
  Definition conv (f g : nat -> K) (k : nat) : K := fsum (map (fun i => f i * g (k - i)%nat) (seq 0 (S k))).
  (** The value at [x]. *)
  Definition eval (l : list K) (x : K) : K := fsum (map (fun i => coeff l i * x ^ i) (seq 0 (length l))).
  (** The product of (X - r) over a list of roots. *)
  Fixpoint roots_product (roots : list K) : nat -> K :=
    match roots with
    | [] => coeff [1]
    | r :: rest => conv (coeff [- r; 1]) (roots_product rest)
    end.
  (** The polynomial is smaller than the divisor: zero, or of lower degree. *)
  Definition smaller (r o : list K) : Prop := (length r < length o)%nat.

  (** Sparse polynomials: coefficient of X^d, well-formedness and value. *)
  Definition scoeff (s : list (Z * K)) (d : nat) : K :=
    fsum (map (fun t => if (fst t =? Z.of_nat d)%Z then snd t else 0) s).
  Definition scanonical (s : list (Z * K)) : Prop :=
    StronglySorted Z.lt (map fst s) /\ Forall (fun t => (0 <= fst t < 2 ^ 64)%Z /\ snd t <> 0) s.
  Definition srepresents (s : list (Z * K)) (f : nat -> K) : Prop := scanonical s /\ forall d, scoeff s d = f d.
  Definition seval (s : list (Z * K)) (x : K) : K := fsum (map (fun t => snd t * x ^ (Z.to_nat (fst t))) s).
  (** Splitting a polynomial into even and odd parts and combining them with [r]. *)
  Definition folded (f : nat -> K) (r : K) (i : nat) : K := f (2 * i)%nat + r * f (2 * i + 1)%nat.
End Spec.
