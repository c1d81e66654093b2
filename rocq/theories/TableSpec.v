(** What a lookup table is, without reference to how it is laid out. *)
From Coq Require Import List Bool Arith.
Import ListNotations.

Section Spec.
  Context {V : Type}.
  Implicit Types cells : list (nat * nat * V).

  (** The column is part of the table. *)
  Definition in_table cells (c : nat) : Prop := exists o v, In (c, o, v) cells.
  (** The value that the caller gave last for (c, r). *)
  Fixpoint given cells (c r : nat) : option V :=
    match cells with
    | [] => None
    | (c', r', v) :: l => match given l c r with Some w => Some w | None => if Nat.eqb c' c && Nat.eqb r' r then Some v else None end
    end.
  (** All columns of the table have the rows 0 .. n-1 and no others. *)
  Definition rectangle cells (n : nat) : Prop := cells <> [] /\ forall c, in_table cells c -> forall r, (exists v, In (c, r, v) cells) <-> r < n.
  (** No column of the table is in [used]; no column is given its row 0 twice. *)
  Definition fresh (used : list nat) cells : Prop := forall c, in_table cells c -> ~ In c used.
  Definition first_rows_once cells : Prop := NoDup (map (fun x => fst (fst x)) (filter (fun x => Nat.eqb (snd (fst x)) 0) cells)).

  (** The fixed columns after the table: the caller's rows, then row 0 again in every other usable row; nothing else has changed. *)
  Definition laid_out cells (n usable : nat) (before after : nat -> nat -> option V) : Prop :=
    forall c r,
      (in_table cells c -> r < n -> exists v, given cells c r = Some v /\ after c r = Some v) /\
      (in_table cells c -> n <= r < usable -> exists v, given cells c 0 = Some v /\ after c r = Some v) /\
      (~ (in_table cells c /\ r < usable) -> after c r = before c r).
End Spec.
