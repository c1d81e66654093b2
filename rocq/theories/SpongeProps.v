(** Property theorems C57, C58 and C94-C97: the duplex sponge and the padding-free sponge.
    [absorb_one] and [squeeze_one] (SpongeSpec.v) are a sponge that takes and gives one element at a time; [None] is an access outside the state. *)
From Coq Require Import List Arith Bool Lia.
From Verif Require Import SpongeModel SpongeSpec SpongeProof SpongeExtra.
Import ListNotations.
Open Scope nat_scope.

(** ** C57: Absorb takes the elements one by one, so that it does not matter how a (non-empty) input is split. *)
Theorem C57_absorb_elementwise : forall {F : Type} (add : F -> F -> F) (perm : list F -> list F) (capacity rate : nat),
  (forall l, length (perm l) = length l) -> 1 <= rate ->
  forall (s : sponge_state F) (xs : list F), valid capacity rate s -> xs <> [] ->
  absorb add perm capacity rate s xs = Some (fold_left (absorb_one add perm capacity rate) xs s) /\
  valid capacity rate (fold_left (absorb_one add perm capacity rate) xs s).
Proof. exact (fun F => absorb_spec (F := F)). Qed.
Print Assumptions C57_absorb_elementwise.

Theorem C57_absorb_split : forall {F : Type} (add : F -> F -> F) (perm : list F -> list F) (capacity rate : nat),
  (forall l, length (perm l) = length l) -> 1 <= rate ->
  forall (s : sponge_state F) (xs ys : list F), valid capacity rate s -> ys <> [] ->
  exists s' s'', absorb add perm capacity rate s xs = Some s' /\ absorb add perm capacity rate s' ys = Some s'' /\
                 absorb add perm capacity rate s (xs ++ ys) = Some s''.
Proof. exact (fun F => absorb_split (F := F)). Qed.
Print Assumptions C57_absorb_split.

Example C57_nonvacuous :
  let s := mk_state [0; 0; 0] (Absorbing 0) in
  let s1 := mk_state [0; 1; 2] (Absorbing 2) in
  let s2 := mk_state [1; 5; 7] (Absorbing 2) in
  absorb Nat.add bump 1 2 s [1; 2] = Some s1 /\ absorb Nat.add bump 1 2 s1 [3; 4] = Some s2 /\ absorb Nat.add bump 1 2 s [1; 2; 3; 4] = Some s2 /\
  valid 1 2 s.
Proof. repeat split; vm_compute; auto. Qed.

(** ** C58: Squeezing is a stream of single elements, except for a request of exactly kRate elements made in the middle of a block (C97). *)
Theorem C58_squeeze_elementwise : forall {F : Type} (perm : list F -> list F) (capacity rate : nat),
  (forall l, length (perm l) = length l) -> 1 <= rate ->
  forall (s : sponge_state F) (n : nat), valid capacity rate s -> (n = rate -> position rate s = 0) ->
  exists out s', squeeze perm capacity rate s n = Some (out, s') /\ length out = n /\ valid capacity rate s' /\
    position rate s' = (position rate s + n) mod rate /\ (exists j, smode s' = Squeezing j) /\
    (1 <= n -> squeeze_many perm capacity rate n s = Some (out, s')) /\
    (forall k, 1 <= k -> squeeze_many perm capacity rate k s' =
       match squeeze_many perm capacity rate (n + k) s with Some (o, s2) => Some (skipn n o, s2) | None => None end).
Proof. exact (fun F => squeeze_spec (F := F)). Qed.
Print Assumptions C58_squeeze_elementwise.

Theorem C58_squeeze_split : forall {F : Type} (perm : list F -> list F) (capacity rate : nat),
  (forall l, length (perm l) = length l) -> 1 <= rate ->
  forall (s : sponge_state F) (m n : nat), valid capacity rate s ->
  (m = rate -> position rate s = 0) -> (n = rate -> (position rate s + m) mod rate = 0) -> (m + n = rate -> position rate s = 0) ->
  exists a s1 b s2 s3, squeeze perm capacity rate s m = Some (a, s1) /\ squeeze perm capacity rate s1 n = Some (b, s2) /\
    squeeze perm capacity rate s (m + n) = Some (a ++ b, s3) /\ (1 <= n -> s3 = s2).
Proof. exact (fun F => squeeze_split (F := F)). Qed.
Print Assumptions C58_squeeze_split.

Example C58_nonvacuous :
  let s := mk_state [0; 5; 9] (Absorbing 1) in
  squeeze bump 1 2 s 1 = Some ([6], mk_state [1; 6; 10] (Squeezing 1)) /\
  squeeze bump 1 2 (mk_state [1; 6; 10] (Squeezing 1)) 3 = Some ([10; 7; 11], mk_state [2; 7; 11] (Squeezing 2)) /\
  squeeze bump 1 2 s 4 = Some ([6; 10; 7; 11], mk_state [2; 7; 11] (Squeezing 2)) /\ valid 1 2 s.
Proof. repeat split; vm_compute; auto. Qed.

(** ** C94: absorbing an empty input is not a no-op: after a full block, or after squeezing, it runs the permutation. *)
Theorem C94_absorb_empty_refuted : exists s s1 s2 o1 o2 t1 t2,
  absorb Nat.add bump 1 2 s [5; 7] = Some s1 /\ absorb Nat.add bump 1 2 s1 [] = Some s2 /\
  squeeze bump 1 2 s1 1 = Some (o1, t1) /\ squeeze bump 1 2 s2 1 = Some (o2, t2) /\ o1 <> o2.
Proof. exact absorb_empty_changes. Qed.
Print Assumptions C94_absorb_empty_refuted.

(** ** C95: the padding-free sponge is defined on every input, and two different inputs of equal length that end in the same state exhibit a collision on the lanes that the next block does not overwrite. *)
Theorem C95_padding_free_total : forall {F : Type} (perm : list F -> list F) (rate width : nat),
  (forall l, length (perm l) = length l) -> 1 <= rate -> rate <= width ->
  forall (n : nat) (xs l : list F), length xs <= n -> length l = width -> exists l', hash_loop perm rate (length xs) l xs = Some l' /\ length l' = width.
Proof. exact (fun F => hash_total (F := F)). Qed.
Print Assumptions C95_padding_free_total.

Theorem C95_padding_free_binding : forall {F : Type} (perm : list F -> list F) (rate width : nat),
  (forall x y : F, {x = y} + {x <> y}) -> (forall l, length (perm l) = length l) ->
  (forall l l', length l = width -> length l' = width -> perm l = perm l' -> l = l') -> 1 <= rate -> rate <= width ->
  forall (l0 xs ys : list F), length l0 = width -> length xs = length ys -> xs <> ys ->
  hash_loop perm rate (length xs) l0 xs = hash_loop perm rate (length ys) l0 ys -> inner_collision perm rate l0 xs ys.
Proof. exact (fun F => hash_binding (F := F)). Qed.
Print Assumptions C95_padding_free_binding.

(** A weak permutation (bump, then swap nothing) with width 3 and rate 2: the capacity lane never depends on the input, so every two inputs collide there. *)
Example C95_nonvacuous :
  padding_free_hash bump 2 [0; 0; 0] 2 [5; 6; 7; 8] = Some [8; 9] /\ padding_free_hash bump 2 [0; 0; 0] 2 [1; 2; 7; 8] = Some [8; 9] /\
  inner_collision bump 2 [0; 0; 0] [5; 6; 7; 8] [1; 2; 7; 8].
Proof.
  split; [reflexivity|]. split; [reflexivity|]. exists 1, [6; 7; 1], [2; 3; 1]. repeat split; try (vm_compute; auto; fail); try discriminate.
Qed.

(** ** C96: the padding-free sponge does not separate inputs of different length: for every permutation, Hash [a] = Hash [a; 0]. *)
Theorem C96_different_lengths_refuted : forall {F : Type} (perm : list F -> list F) (zero a : F) (rate extra out : nat), 2 <= rate ->
  padding_free_hash perm rate (repeat zero (rate + extra)) out [a] = padding_free_hash perm rate (repeat zero (rate + extra)) out [a; zero].
Proof. exact (fun F => padding_free_zeros (F := F)). Qed.
Print Assumptions C96_different_lengths_refuted.

(** ** C97: a request of exactly kRate elements in the middle of a block repeats an element that was already given out: 1 then 2 gives x0, x1, x0 where 3 gives x0, x1, y0. *)
Theorem C97_full_block_repeats_refuted : forall {F : Type} (perm : list F -> list F) (l : list F) (c x0 x1 : F), perm l = [c; x0; x1] ->
  let s := mk_state l (Absorbing 0) in
  exists s1 s2, squeeze perm 1 2 s 1 = Some ([x0], s1) /\ squeeze perm 1 2 s1 2 = Some ([x1; x0], s2) /\
    (forall c' y0 y1, perm [c; x0; x1] = [c'; y0; y1] -> exists s3, squeeze perm 1 2 s 3 = Some ([x0; x1; y0], s3)).
Proof. exact (fun F => squeeze_repeats (F := F)). Qed.
Print Assumptions C97_full_block_repeats_refuted.
