(** Specification of a duplex sponge that takes and gives one element at a time. *)
From Coq Require Import List Arith.
From Verif Require Import SpongeModel.
Import ListNotations.
Open Scope nat_scope.

Section Spec.
  Context {F : Type}.
  Variables (add : F -> F -> F) (perm : list F -> list F) (capacity rate : nat).

  (** Add x to lane p. *)
  Definition add_lane (l : list F) (p : nat) (x : F) : list F :=
    map (fun q => if fst q =? p then add (snd q) x else snd q) (combine (seq 0 (length l)) l).

  (** Absorb one element: permute when switching from squeezing and when the block is full; then add to the next lane of the rate part. *)
  Definition absorb_one (s : sponge_state F) (x : F) : sponge_state F :=
    match smode s with
    | Absorbing i => if i =? rate then mk_state (add_lane (perm (elements s)) capacity x) (Absorbing 1)
                     else mk_state (add_lane (elements s) (capacity + i) x) (Absorbing (i + 1))
    | Squeezing _ => mk_state (add_lane (perm (elements s)) capacity x) (Absorbing 1)
    end.

  (** Squeeze one element: permute when switching from absorbing and when the block is exhausted. *)
  Definition squeeze_one (s : sponge_state F) : option F * sponge_state F :=
    match smode s with
    | Squeezing i => if i =? rate then (nth_error (perm (elements s)) capacity, mk_state (perm (elements s)) (Squeezing 1))
                     else (nth_error (elements s) (capacity + i), mk_state (elements s) (Squeezing (i + 1)))
    | Absorbing _ => (nth_error (perm (elements s)) capacity, mk_state (perm (elements s)) (Squeezing 1))
    end.
  Fixpoint squeeze_many (n : nat) (s : sponge_state F) : option (list F * sponge_state F) :=
    match n with
    | O => Some ([], s)
    | S n' => match squeeze_one s with
              | (Some x, s') => match squeeze_many n' s' with Some (xs, s'') => Some (x :: xs, s'') | None => None end
              | (None, _) => None
              end
    end.

  (** The states the sponge can be in. *)
  Definition valid (s : sponge_state F) : Prop :=
    length (elements s) = capacity + rate /\ match smode s with Absorbing i | Squeezing i => i <= rate end.

  (** How many elements of the current block have been squeezed. *)
  Definition position (s : sponge_state F) : nat := match smode s with Absorbing _ => 0 | Squeezing i => i mod rate end.

  (** The state of the padding-free sponge after the first j blocks of the input. *)
  Definition state_after (l : list F) (j : nat) (xs : list F) : option (list F) := hash_loop perm rate (length (firstn (j * rate) xs)) l (firstn (j * rate) xs).

  (** Two inputs lead, after the same number of whole blocks, to different states that agree on every lane the next block does not overwrite. *)
  Definition inner_collision (l0 : list F) (xs ys : list F) : Prop :=
    exists j s s', 1 <= j /\ j * rate < length xs /\ state_after l0 j xs = Some s /\ state_after l0 j ys = Some s' /\ s <> s' /\
      skipn (Nat.min rate (length xs - j * rate)) s = skipn (Nat.min rate (length xs - j * rate)) s'.
End Spec.
