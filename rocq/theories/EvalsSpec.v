(** Vocabulary for the evaluation vectors. A vector of values e stands for the function i |-> e[i]; the empty vector stands
    for zero, whatever the domain. *)
From Coq Require Import ZArith List.
From Verif Require Import Field EvalsModel.
Import ListNotations.
Open Scope fld_scope.

(** Two vectors over the same domain, either of which may be the empty zero. *)
Definition compatible {K : fld} (a b : list K) : Prop := a = [] \/ b = [] \/ length a = length b.
(** The call returned a vector (within MaxDegree) with these values. *)
Definition result {K : fld} (r : option (list K)) (md : Z) (f : nat -> K) : Prop :=
  exists e, r = Some e /\ (Z.of_nat (length e) <= md + 1)%Z /\ forall i, ev_at e i = f i.
(** When a division reports failure: the divisor is the empty zero; or the dividend is not, and the sizes differ or a value
    of the divisor is zero. *)
Definition div_fails {K : fld} (a b : list K) : Prop :=
  b = [] \/ (a <> [] /\ (length a <> length b \/ exists i, (i < length b)%nat /\ ev_at b i = 0)).
