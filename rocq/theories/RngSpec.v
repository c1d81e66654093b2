(** Specification of the random streams: what the outputs are, as sequences, without any generator state. *)
From Coq Require Import ZArith List.
Import ListNotations.
Open Scope Z_scope.

(** A byte string of a given length. *)
Definition byte_string (n : nat) (l : list Z) : Prop := length l = n /\ Forall (fun b => 0 <= b < 256) l.
(** The [i]-th little-endian 32-bit word of a byte string. *)
Definition le_word (l : list Z) (i : nat) : Z :=
  nth (4 * i) l 0 + 2 ^ 8 * nth (4 * i + 1) l 0 + 2 ^ 16 * nth (4 * i + 2) l 0 + 2 ^ 24 * nth (4 * i + 3) l 0.
(** A vector of 32-bit words. *)
Definition words (n : nat) (l : list Z) : Prop := length l = n /\ Forall (fun w => 0 <= w < 2 ^ 32) l.

(** Marsaglia's xorshift128 recurrence: bits shifted out at the left are lost. *)
Definition xorshift128 (v : nat -> Z) : Prop :=
  forall n, let t := Z.lxor (v n) ((v n * 2 ^ 11) mod 2 ^ 32) in
    v (n + 4)%nat = Z.lxor (Z.lxor (v (n + 3)%nat) (v (n + 3)%nat / 2 ^ 19)) (Z.lxor t (t / 2 ^ 8)).

(** The sixteen words fed to the block function for block number [k] (64-bit counter) under a key. *)
Definition chacha_block_input (key : list Z) (k : Z) : list Z :=
  [1634760805; 857760878; 2036477234; 1797285236] ++ map (le_word key) (seq 0 8) ++
  [k mod 2 ^ 32; k / 2 ^ 32 mod 2 ^ 32; 0; 0].
(** Word number [i] of the keystream. *)
Definition chacha_word (core : list Z -> list Z) (key : list Z) (i : nat) : Z :=
  le_word (core (chacha_block_input key (Z.of_nat (i / 16)))) (i mod 16).
(** The block function returns sixty-four bytes. *)
Definition block_function (core : list Z -> list Z) : Prop := forall i, byte_string 64 (core i).

(** The ChaCha20 block function of RFC 8439, section 2.3, used only to exhibit a concrete instance. *)
Definition rotl32 (x n : Z) : Z := Z.lor (Z.shiftl x n mod 2 ^ 32) (Z.shiftr x (32 - n)).
Definition add32 (x y : Z) : Z := (x + y) mod 2 ^ 32.
Fixpoint put_word (i : nat) (v : Z) (l : list Z) : list Z :=
  match l, i with [], _ => [] | _ :: r, O => v :: r | x :: r, S j => x :: put_word j v r end.
Definition quarter_round (a b c d : nat) (x : list Z) : list Z :=
  let g i l := nth i l 0 in
  let x := put_word a (add32 (g a x) (g b x)) x in
  let x := put_word d (rotl32 (Z.lxor (g d x) (g a x)) 16) x in
  let x := put_word c (add32 (g c x) (g d x)) x in
  let x := put_word b (rotl32 (Z.lxor (g b x) (g c x)) 12) x in
  let x := put_word a (add32 (g a x) (g b x)) x in
  let x := put_word d (rotl32 (Z.lxor (g d x) (g a x)) 8) x in
  let x := put_word c (add32 (g c x) (g d x)) x in
  put_word b (rotl32 (Z.lxor (g b x) (g c x)) 7) x.
Definition double_round (x : list Z) : list Z :=
  quarter_round 3 4 9 14 (quarter_round 2 7 8 13 (quarter_round 1 6 11 12 (quarter_round 0 5 10 15
    (quarter_round 3 7 11 15 (quarter_round 2 6 10 14 (quarter_round 1 5 9 13 (quarter_round 0 4 8 12 x))))))).
Definition word_bytes (w : Z) : list Z := map (fun k => w / 2 ^ (8 * k) mod 256) [0; 1; 2; 3].
Definition chacha20_block (inp : list Z) : list Z :=
  let x := Nat.iter 10 double_round inp in
  concat (map (fun i => word_bytes (add32 (nth i x 0) (nth i inp 0))) (seq 0 16)).
