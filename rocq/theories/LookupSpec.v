(** What the lookup argument asks of operator< and of base::UnstableSort. *)
From Coq Require Import List Permutation Sorted Bool.
Import ListNotations.

Definition strict_total {F : Type} (ltb : F -> F -> bool) : Prop :=
  (forall x, ltb x x = false) /\ (forall x y z, ltb x y = true -> ltb y z = true -> ltb x z = true) /\ (forall x y, ltb x y = false -> ltb y x = false -> x = y).
Definition ascending {F : Type} (ltb : F -> F -> bool) (l : list F) : Prop := StronglySorted (fun x y => ltb y x = false) l.
Definition sorts {F : Type} (ltb : F -> F -> bool) (sort : list F -> list F) : Prop := forall l, Permutation l (sort l) /\ ascending ltb (sort l).
