(** Vocabulary for the theorems about quadratic arithmetic programs. *)
From Coq Require Import ZArith List Arith.
From Verif Require Import Field PolySpec FFTSpec DomainSpec R1csModel R1csSpec.
Import ListNotations.
Open Scope fld_scope.

(** An assignment: a value for every variable, one for the constant. *)
Definition assignment {K : fld} (m : matrices K) (z : list K) : Prop := length z = (m_inst m + m_wit m)%nat /\ nth 0 z 0 = 1.
(** The values of the three polynomials of an assignment on the domain: the row values, then, for the first, the instance
    variables, then zeros. *)
Definition a_value {K : fld} (m : matrices K) (z : list K) (i : nat) : K :=
  if Nat.ltb i (m_con m) then row_value z (nth i (m_a m) [])
  else if Nat.ltb i (m_con m + m_inst m) then nth (i - m_con m) z 0 else 0.
Definition b_value {K : fld} (m : matrices K) (z : list K) (i : nat) : K := if Nat.ltb i (m_con m) then row_value z (nth i (m_b m) []) else 0.
Definition c_value {K : fld} (m : matrices K) (z : list K) (i : nat) : K := if Nat.ltb i (m_con m) then row_value z (nth i (m_c m) []) else 0.
(** [p] is the polynomial of degree below [n] that takes the value v i at g^i. *)
Definition interpolates {K : fld} (p : list K) (g : K) (n : nat) (v : nat -> K) : Prop :=
  (length p <= n)%nat /\ forall i, (i < n)%nat -> eval p (g ^ i) = v i.
(** The polynomials A, B and C of an assignment. *)
Definition qap_polys {K : fld} (m : matrices K) (z : list K) (g : K) (n : nat) (A B C : list K) : Prop :=
  interpolates A g n (a_value m z) /\ interpolates B g n (b_value m z) /\ interpolates C g n (c_value m z).
(** The inner product of two vectors. *)
Definition inner {K : fld} (u v : list K) : K := fsum (map (fun p => fst p * snd p) (combine u v)).
