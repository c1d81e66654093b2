(** Model of tachyon/crypto/hashes/sponge/poseidon/poseidon_grain_lfsr.h and of the drawing part of
    FindPoseidonARKAndMDS (poseidon_config.h:37-70). *)
From Coq Require Import ZArith List Bool.
From Verif Require Import BigIntModel BigIntSpec.
Import ListNotations.
Open Scope Z_scope.

(** [Stop]: a failed CHECK, an exception of std::bitset::set or an index outside the array.
    [Pending]: the allowance of loop rounds is used up; nothing is said about that run. *)
Inductive res (A : Type) : Type := Done (a : A) | Stop | Pending.
Arguments Done {A} _.
Arguments Stop {A}.
Arguments Pending {A}.
Definition bind {A B} (x : res A) (f : A -> res B) : res B :=
  match x with Done a => f a | Stop => Stop | Pending => Pending end.

(** poseidon_grain_lfsr.h:19-25 PoseidonGrainLFSRConfig; the integers are uint64_t values. *)
Record config := { c_inverse : bool; c_prime_bits : Z; c_state_len : Z; c_full : Z; c_partial : Z }.

(** poseidon_grain_lfsr.h:30-35 the data members. *)
Record lfsr := { g_prime_bits : Z; g_state : list bool; g_head : nat }.

(** state[i] = v; an index outside the array is [None]. *)
Fixpoint set_nth (l : list bool) (i : nat) (v : bool) : option (list bool) :=
  match l, i with
  | [], _ => None
  | _ :: r, O => Some (v :: r)
  | x :: r, S j => option_map (cons x) (set_nth r j v)
  end.

(** poseidon_grain_lfsr.h:46-55 Update. *)
Definition tap (s : lfsr) (k : nat) : option bool := nth_error (g_state s) ((g_head s + k) mod 80).
Definition update (s : lfsr) : res (bool * lfsr) :=
  match tap s 62, tap s 51, tap s 38, tap s 23, tap s 13, nth_error (g_state s) (g_head s) with
  | Some a, Some b, Some c, Some d, Some e, Some f =>
      let new_bit := xorb (xorb (xorb (xorb (xorb a b) c) d) e) f in
      match set_nth (g_state s) (g_head s) new_bit with
      | Some st => Done (new_bit, {| g_prime_bits := g_prime_bits s; g_state := st; g_head := (g_head s + 1) mod 80 |})
      | None => Stop
      end
  | _, _, _, _, _, _ => Stop
  end.

(** Calling Update [n] times, with the bits returned. *)
Fixpoint update_n (n : nat) (s : lfsr) : res (list bool * lfsr) :=
  match n with
  | O => Done ([], s)
  | S k => bind (update s) (fun '(b, s1) => bind (update_n k s1) (fun '(l, s2) => Done (b :: l, s2)))
  end.

(** poseidon_grain_lfsr.h:75-80 fill_state: i goes from end down to start. *)
Fixpoint fill_loop (value : Z) (idx : list nat) (st : list bool) : option (list bool) :=
  match idx with
  | [] => Some st
  | i :: r =>
      match set_nth st i (Z.odd value) with
      | Some st1 => fill_loop (Z.shiftr value 1) r st1
      | None => None
      end
  end.
Definition fill_state (value : Z) (start stop : nat) (st : list bool) : option (list bool) :=
  fill_loop value (rev (seq start (stop - start + 1))) st.

(** poseidon_grain_lfsr.h:101-103: the loop setting bits 50 to 79. *)
Fixpoint set_ones (idx : list nat) (st : list bool) : option (list bool) :=
  match idx with
  | [] => Some st
  | i :: r => match set_nth st i true with Some st1 => set_ones r st1 | None => None end
  end.

Definition obind {A B} (x : option A) (f : A -> option B) : option B :=
  match x with Some a => f a | None => None end.

(** poseidon_grain_lfsr.h:64-107 the constructor; Init (57-61) is 160 calls of Update. *)
Definition initial_state (c : config) : option (list bool) :=
  obind (set_nth (repeat false 80) 1 true) (fun s1 =>
  obind (set_nth s1 5 (c_inverse c)) (fun s2 =>
  obind (fill_state (c_prime_bits c) 6 17 s2) (fun s3 =>
  obind (fill_state (c_state_len c) 18 29 s3) (fun s4 =>
  obind (fill_state (c_full c) 30 39 s4) (fun s5 =>
  obind (fill_state (c_partial c) 40 49 s5) (fun s6 =>
  set_ones (seq 50 30) s6)))))).
Definition construct (c : config) : res lfsr :=
  match initial_state c with
  | None => Stop
  | Some st => bind (update_n 160 {| g_prime_bits := c_prime_bits c; g_state := st; g_head := 0 |}) (fun '(_, s) => Done s)
  end.

(** poseidon_grain_lfsr.h:115-129: one round of the loop of GetBits. [fuel] bounds the inner while loop. *)
Fixpoint next_bit (fuel : nat) (s : lfsr) : res (bool * lfsr) :=
  match fuel with
  | O => Pending
  | S f =>
      bind (update s) (fun '(new_bit, s1) =>
      if new_bit then update s1
      else bind (update s1) (fun '(_, s2) => next_bit f s2))
  end.

(** poseidon_grain_lfsr.h:109-131 GetBits. [m] is kModulusBits, the size of the bitset, whose set() throws
    when the index is not below it. *)
Fixpoint get_bits_loop (fuel k i : nat) (ret : list bool) (s : lfsr) : res (list bool * lfsr) :=
  match k with
  | O => Done (ret, s)
  | S k' =>
      bind (next_bit fuel s) (fun '(b, s1) =>
      match set_nth ret i b with
      | None => Stop
      | Some ret1 => get_bits_loop fuel k' (S i) ret1 s1
      end)
  end.
Definition get_bits (fuel m num_bits : nat) (s : lfsr) : res (list bool * lfsr) :=
  get_bits_loop fuel num_bits 0 (repeat false m) s.

(** A sequence of calls of GetBits. *)
Fixpoint get_bits_many (fuel m : nat) (requests : list nat) (s : lfsr) : res (list (list bool) * lfsr) :=
  match requests with
  | [] => Done ([], s)
  | n :: r =>
      bind (get_bits fuel m n s) (fun '(l, s1) =>
      bind (get_bits_many fuel m r s1) (fun '(ls, s2) => Done (l :: ls, s2)))
  end.

(** The fields the generator is used with: kModulusBits, the number of limbs and kModulus. *)
Record field_params := { f_bits : nat; f_limbs : nat; f_modulus : Z }.

(** poseidon_grain_lfsr.h:148-149 and 178-180: GetBits(prime_num_bits), FromBitsBE. The comparison, the
    remainder and FromBigInt act on the value of the limbs (C03, C04, C09); prime_num_bits is kModulusBits
    here, as checked by the callers. *)
Definition draw_int (fuel : nat) (f : field_params) (s : lfsr) : res (Z * lfsr) :=
  bind (get_bits fuel (f_bits f) (Z.to_nat (g_prime_bits s)) s) (fun '(bits, s1) =>
  Done (val 64 (bi_from_bits_be (f_limbs f) bits), s1)).

(** poseidon_grain_lfsr.h:146-159: the while (true) loop; [tries] bounds it. *)
Fixpoint sample_one (tries fuel : nat) (f : field_params) (s : lfsr) : res (Z * lfsr) :=
  match tries with
  | O => Pending
  | S t =>
      bind (draw_int fuel f s) (fun '(v, s1) =>
      if v <? f_modulus f then Done (v, s1) else sample_one t fuel f s1)
  end.
Fixpoint sample_loop (tries fuel : nat) (f : field_params) (n : nat) (s : lfsr) : res (list Z * lfsr) :=
  match n with
  | O => Done ([], s)
  | S k =>
      bind (sample_one tries fuel f s) (fun '(v, s1) =>
      bind (sample_loop tries fuel f k s1) (fun '(l, s2) => Done (v :: l, s2)))
  end.
(** poseidon_grain_lfsr.h:134-163 GetFieldElementsRejectionSampling. An element is its canonical value;
    broadcasting it to the lanes of a packed field is left out. *)
Definition rejection_sampling (tries fuel : nat) (f : field_params) (n : nat) (s : lfsr) : res (list Z * lfsr) :=
  if Z.of_nat (f_bits f) =? g_prime_bits s then sample_loop tries fuel f n s else Stop.

(** poseidon_grain_lfsr.h:166-192 GetFieldElementsModP. *)
Fixpoint mod_p_loop (fuel : nat) (f : field_params) (n : nat) (s : lfsr) : res (list Z * lfsr) :=
  match n with
  | O => Done ([], s)
  | S k =>
      bind (draw_int fuel f s) (fun '(v, s1) =>
      bind (mod_p_loop fuel f k s1) (fun '(l, s2) => Done (v mod f_modulus f :: l, s2)))
  end.
Definition mod_p (fuel : nat) (f : field_params) (n : nat) (s : lfsr) : res (list Z * lfsr) :=
  if Z.of_nat (f_bits f) =? g_prime_bits s then mod_p_loop fuel f n s else Stop.

(** poseidon_config.h:37-61: the draws of FindPoseidonARKAndMDS. [rows] is num_full_rounds +
    num_partial_rounds. The matrix 1 / (xs[i] + ys[j]) made of the last two vectors is PoseidonModel.cauchy_mds. *)
Fixpoint ark_rows (tries fuel : nat) (f : field_params) (t rows : nat) (s : lfsr) : res (list (list Z) * lfsr) :=
  match rows with
  | O => Done ([], s)
  | S k =>
      bind (rejection_sampling tries fuel f t s) (fun '(row, s1) =>
      bind (ark_rows tries fuel f t k s1) (fun '(l, s2) => Done (row :: l, s2)))
  end.
Fixpoint skip_draws (fuel : nat) (f : field_params) (t skips : nat) (s : lfsr) : res lfsr :=
  match skips with
  | O => Done s
  | S k => bind (mod_p fuel f (2 * t) s) (fun '(_, s1) => skip_draws fuel f t k s1)
  end.
Definition find_ark_xs_ys (tries fuel : nat) (f : field_params) (c : config) (skips : nat)
  : res (list (list Z) * list Z * list Z) :=
  let t := Z.to_nat (c_state_len c) in
  bind (construct c) (fun s =>
  bind (ark_rows tries fuel f t (Z.to_nat (c_full c + c_partial c)) s) (fun '(ark, s1) =>
  bind (skip_draws fuel f t skips s1) (fun s2 =>
  bind (mod_p fuel f t s2) (fun '(xs, s3) =>
  bind (mod_p fuel f t s3) (fun '(ys, _) => Done (ark, xs, ys)))))).
