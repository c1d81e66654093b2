(** Property theorems C25 for base::Range. *)
From Coq Require Import ZArith List Bool Lia.
From Verif Require Import RangeModel RangeSpec RangeProof.
Import ListNotations.
Open Scope Z_scope.

Theorem C25_contains : forall si ei r v, contains si ei r v = true <-> between si ei (rfrom r) (rto r) v.
Proof. exact contains_spec. Qed.
Print Assumptions C25_contains.

Theorem C25_intersect : forall si ei a b v, contains si ei (intersect a b) v = contains si ei a v && contains si ei b v.
Proof. exact intersect_spec. Qed.
Print Assumptions C25_intersect.

(** The specification's [count] is the number of integers between the bounds. *)
Theorem C25_count_counts : forall si ei a b, exists l, NoDup l /\ (forall v, In v l <-> between si ei a b v) /\ Z.of_nat (length l) = count si ei a b.
Proof. exact count_spec. Qed.
Print Assumptions C25_count_counts.

(** IsEmpty, for ranges that include at least one of their bounds. *)
Theorem C25_is_empty_partial : forall si ei t r, si || ei = true -> of_type t (rfrom r) -> of_type t (rto r) ->
  is_empty si ei r = true <-> forall v, of_type t v -> contains si ei r v = false.
Proof. exact is_empty_spec. Qed.
Print Assumptions C25_is_empty_partial.

(** The open range (3, 4) contains nothing but is not IsEmpty. *)
Theorem C25_is_empty_refuted : exists r, is_empty false false r = false /\ forall v, contains false false r v = false.
Proof. exact is_empty_open_wrong. Qed.
Print Assumptions C25_is_empty_refuted.

(** GetSize, whenever the difference of the bounds and the size are values of the (promoted) type. *)
Theorem C25_get_size_partial : forall t si ei r, integer_type t -> (is_empty si ei r = false -> sizes_fit t si ei r) ->
  get_size t si ei r = Some (count si ei (rfrom r) (rto r)).
Proof. exact get_size_spec. Qed.
Print Assumptions C25_get_size_partial.

(** In particular always, for the default half-open ranges of unsigned types. *)
Theorem C25_get_size_half_open_unsigned : forall t r, integer_type t -> signed t = false -> of_type t (rfrom r) -> of_type t (rto r) ->
  get_size t true false r = Some (count true false (rfrom r) (rto r)).
Proof. exact get_size_half_open. Qed.
Print Assumptions C25_get_size_half_open_unsigned.

(** The inclusive range of all uint32_t values has size 0; the range of all int values overflows. *)
Theorem C25_get_size_refuted : exists t r s, integer_type t /\ of_type t (rfrom r) /\ of_type t (rto r) /\ get_size t true true r = Some s /\
  s <> count true true (rfrom r) (rto r).
Proof. exact get_size_wraps. Qed.
Print Assumptions C25_get_size_refuted.
Theorem C25_get_size_overflow_refuted : exists t r, integer_type t /\ of_type t (rfrom r) /\ of_type t (rto r) /\ get_size t true false r = None.
Proof. exact get_size_undefined. Qed.
Print Assumptions C25_get_size_overflow_refuted.

(** A for loop over a non-empty range visits exactly the contained values, in increasing order. *)
Theorem C25_iteration_partial : forall t si ei r fuel, integer_type t -> of_type t (rfrom r) -> of_type t (rto r) -> is_empty si ei r = false ->
  (ei = true -> rto r < highest t) -> (Z.to_nat (count si ei (rfrom r) (rto r)) <= fuel)%nat ->
  exists l, iterate t fuel si ei r = Some l /\ Z.of_nat (length l) = count si ei (rfrom r) (rto r) /\
    (forall i, (i < length l)%nat -> nth i l 0 = (if si then rfrom r else rfrom r + 1) + Z.of_nat i) /\
    (forall v, In v l <-> contains si ei r v = true).
Proof. exact iterate_spec. Qed.
Print Assumptions C25_iteration_partial.

(** The inclusive range of all size_t values is visited as if empty; the empty open range (3, 3) is not. *)
Theorem C25_iteration_refuted : exists t r, integer_type t /\ of_type t (rfrom r) /\ of_type t (rto r) /\ contains true true r 5 = true /\
  forall fuel, iterate t fuel true true r = Some [].
Proof. exact iterate_all_wrong. Qed.
Print Assumptions C25_iteration_refuted.
Theorem C25_iteration_empty_refuted : exists t r, integer_type t /\ of_type t (rfrom r) /\ of_type t (rto r) /\ is_empty false false r = true /\
  iterate t 100 false false r = None.
Proof. exact iterate_empty_wrong. Qed.
Print Assumptions C25_iteration_empty_refuted.

Example C25_nonvacuous : let t := IT 8 true in let r := Range (-3) 2 in
  integer_type t /\ sizes_fit t true true r /\ get_size t true true r = Some 6 /\ iterate t 10 false true r = Some [-2; -1; 0; 1; 2] /\
  contains false true r (-3) = false /\ contains true true (intersect r (Range 0 9)) 2 = true.
Proof. cbv zeta. split; [left; reflexivity|]. split; [split; cbv; split; discriminate|]. repeat split. Qed.
