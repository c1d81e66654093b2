(** What a collected witness is, said of the list of calls alone. *)
From Coq Require Import List Bool Arith.
From Verif Require Import WitnessModel.
Import ListNotations.

(** Call k is for the cell, and not of a later phase. *)
Definition concerns {R : Type} (phase : nat) (cs : list (call R)) (k column row : nat) (v : option R) : Prop :=
  exists c, nth_error cs k = Some c /\ c_phase c <= phase /\ c_column c = column /\ c_row c = row /\ c_value c = v.

(** The cell's value is that of the last call for it, and zero if there is none. *)
Definition cell_value {R : Type} (zero : R) (phase : nat) (cs : list (call R)) (column row : nat) (v : R) : Prop :=
  (exists k, concerns phase cs k column row (Some v) /\ forall k' v', concerns phase cs k' column row v' -> k' <= k) \/
  ((forall k v', ~ concerns phase cs k column row v') /\ v = zero).

(** A call the collection accepts *)
Definition acceptable {R : Type} (cols usable phase : nat) (c : call R) : Prop :=
  phase < c_phase c \/ (c_column c < cols /\ c_row c < usable /\ c_value c <> None).

(** Entry of a table *)
Definition entry {A : Type} (t : list (list A)) (column row : nat) : option A :=
  match nth_error t column with Some l => nth_error l row | None => None end.
