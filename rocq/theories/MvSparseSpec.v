(** What a sparse multivariate polynomial means: the sum of coefficient times the product of the powers of the variables. *)
From Coq Require Import ZArith NArith List.
From Verif Require Import Field.
Import ListNotations.
Open Scope fld_scope.

Section Spec.
  Variable K : fld.
  (** The value of a product of powers and of a sum of terms where variable v has the value [x v]. *)
  Definition monomial_value (x : N -> K) (l : list (N * N)) : K := fprod (map (fun e => x (fst e) ^ N.to_nat (snd e)) l).
  Definition value (x : N -> K) (ts : list (list (N * N) * K)) : K := fsum (map (fun t => snd t * monomial_value x (fst t)) ts).
  (** The variables take their values from a vector. *)
  Definition at_point (pts : list K) (v : N) : K := nth (N.to_nat v) pts 0.
  (** All variables have a number below n. *)
  Definition variables_below (n : nat) (ts : list (list (N * N) * K)) : Prop :=
    forall t e, In t ts -> In e (fst t) -> (N.to_nat (fst e) < n)%nat.
  (** The total degree. *)
  Definition total_degree (l : list (N * N)) : Z := fold_right (fun e d => (Z.of_N (snd e) + d)%Z) 0%Z l.
  (** Monomials that the code can handle: at least one element, total degree representable as an int. *)
  Definition proper (ts : list (list (N * N) * K)) : Prop :=
    forall t, In t ts -> fst t <> [] /\ (total_degree (fst t) < 2 ^ 31)%Z.
  (** Each term is a power of one variable. *)
  Definition univariate (ts : list (list (N * N) * K)) : Prop :=
    forall t, In t ts -> exists v e, fst t = [(v, e)].
End Spec.
(** The same monomial: the same elements, or both constant. *)
Definition same_monomial (l l' : list (N * N)) : Prop := l = l' \/ (total_degree l = 0%Z /\ total_degree l' = 0%Z).
