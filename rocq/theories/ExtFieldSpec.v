(** Specification of arithmetic in K[x]/(x^n - q): elements are lists of n coefficients. *)
From Coq Require Import List Arith.
From Verif Require Import Field.
Import ListNotations.
Open Scope fld_scope.

Section Spec.
  Context {K : fld}.
  (** Coefficient k of the product: the pairs of terms whose degrees add up to k, and q times the
      pairs whose degrees add up to k + n, because x^n = q. *)
  Definition mod_mul_coeff (n : nat) (q : K) (a b : list K) (k : nat) : K :=
    fsum (map (fun i => fsum (map (fun j =>
      if Nat.eqb (i + j) k then nth i a 0 * nth j b 0
      else if Nat.eqb (i + j) (k + n) then q * (nth i a 0 * nth j b 0)
      else 0) (seq 0 n))) (seq 0 n)).
  Definition mod_mul (n : nat) (q : K) (a b : list K) : list K := map (mod_mul_coeff n q a b) (seq 0 n).
  (** One and zero. *)
  Definition mod_one (n : nat) : list K := 1 :: repeat 0 (n - 1).
  Definition mod_zero (n : nat) : list K := repeat 0 n.
  (** q has no square root, no cube root. *)
  Definition non_square (q : K) : Prop := forall x : K, x * x <> q.
  Definition non_cube (q : K) : Prop := forall x : K, x * x * x <> q.
End Spec.
