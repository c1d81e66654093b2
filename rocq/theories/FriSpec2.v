(** Vocabulary for C112 and C125. *)
From Coq Require Import List.
Import ListNotations.
(** The positions a verifier asks for, in order. *)
Fixpoint positions {Ch : Type} (sample_bits : nat -> Ch -> nat * Ch) (log_max n : nat) (ch : Ch) : list nat :=
  match n with O => [] | S n' => fst (sample_bits log_max ch) :: positions sample_bits log_max n' (snd (sample_bits log_max ch)) end.
