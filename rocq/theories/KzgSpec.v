(** Vocabulary for the theorems about KZG, GWC and SHPlonk. *)
From Coq Require Import ZArith List Bool Arith Sorted.
From Verif Require Import Field PolySpec GrothModel KzgModel.
Import ListNotations.
Open Scope fld_scope.

(** [ltb] is a strict total order: operator< on field elements compares their representatives. *)
Definition orders {K : fld} (ltb : K -> K -> bool) : Prop :=
  (forall x, ltb x x = false) /\ (forall x y z, ltb x y = true -> ltb y z = true -> ltb x z = true) /\
  (forall x y, ltb x y = false -> ltb y x = false -> x = y).
(** A claim is true of the polynomials. *)
Definition holds {K : fld} (polys : nat -> list K) (o : opening K) : Prop := eval (polys (o_ref o)) (o_point o) = o_value o.
(** The commitments to the polynomials under a secret: p(tau) g1. *)
Definition committed {K : fld} {G1 : group K} (polys : nat -> list K) (tau : K) (g1 : G1) (r : nat) : G1 := (eval (polys r) tau ** g1)%grp.
(** The claim is the first one of the list about its polynomial and point. *)
Definition first_claim {K : fld} (os : list (opening K)) (o : opening K) : Prop :=
  exists before after, os = before ++ o :: after /\ forall o', In o' before -> ~ (o_ref o' = o_ref o /\ o_point o' = o_point o).
(** The polynomials of a list of claims fit: no zero at the end, at most [n] coefficients. *)
Definition fit {K : fld} (polys : nat -> list K) (os : list (opening K)) (n : nat) : Prop :=
  forall o, In o os -> canonical (polys (o_ref o)) /\ (length (polys (o_ref o)) <= n)%nat.
(** The powers of a secret, as points: g1, tau g1, ..., tau^(n-1) g1. *)
Definition powers_at {K : fld} {G1 : group K} (k : kzg G1) (g1 : G1) (tau : K) (n : nat) : Prop := k_powers k = map (fun i => (tau ^ i ** g1)%grp) (seq 0 n).
(** A scheme set up with the secret [tau] for polynomials of at most [n] coefficients: the powers, and the two points of the
    verifier's pairing check. *)
Definition set_up {K : fld} {G1 G2 : group K} (p : pcs G1 G2) (g1 : G1) (g2 : G2) (tau : K) (n : nat) : Prop :=
  powers_at (p_kzg p) g1 tau n /\ p_arr0 p = (tau ** g2)%grp /\ p_arr1 p = (- g2)%grp.
(** No polynomial is opened at more than [m] points. *)
Definition opened_at_most {K : fld} (os : list (opening K)) (m : Z) : Prop :=
  forall r (xs : list K), NoDup xs -> (forall x, In x xs -> exists o, In o os /\ o_ref o = r /\ o_point o = x) -> (Z.of_nat (length xs) <= m)%Z.
