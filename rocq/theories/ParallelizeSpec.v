(** Independent vocabulary for the parallel loops: what it means for a list of callback invocations
    (index, start, length) to split the range [0, size) exactly, and the result every schedule must
    produce. *)
From Coq Require Import ZArith List.
Import ListNotations.
Open Scope Z_scope.

(** The calls are numbered idx, idx+1, ... and cover pos..stop back to back with non-empty pieces. *)
Fixpoint tiles (idx pos : Z) (calls : list (Z * Z * Z)) (stop : Z) : Prop :=
  match calls with
  | [] => pos = stop
  | (i, start, len) :: r => i = idx /\ start = pos /\ 0 < len /\ tiles (idx + 1) (pos + len) r stop
  end.

(** The piece of [l] a call owns. *)
Definition piece {A} (l : list A) (c : Z * Z * Z) : list A :=
  match c with (_, start, len) => firstn (Z.to_nat len) (skipn (Z.to_nat start) l) end.

(** Running a whole program (list of steps) on one piece. *)
Definition run_prog {A} (prog : list (list A -> list A)) (s : list A) : list A :=
  fold_left (fun s f => f s) prog s.

(** The schedule-independent outcome: each piece processed by its own program, put back in place. *)
Definition piecewise {A} (calls : list (Z * Z * Z)) (progs : list (list (list A -> list A))) (l : list A)
  : list A :=
  concat (map (fun cp => run_prog (snd cp) (piece l (fst cp))) (combine calls progs)).

Definition keeps_length {A} (f : list A -> list A) : Prop := forall s, length (f s) = length s.

(** What std::vector::resize(size, x) leaves behind. *)
Definition resized {A} (l : list A) (size : nat) (x : A) : list A :=
  firstn size l ++ repeat x (size - length l).
