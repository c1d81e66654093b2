(** Model of the random generators of tachyon/crypto/random (rng.h, block_rng.h,
    xor_shift/xor_shift_rng.h, cha_cha20/cha_cha20_rng.h), of the field sampling built on them
    (tachyon/zk/plonk/halo2/random_field_generator.h, prime_field_conversion.h), of
    tachyon/zk/base/blinder.h and of tachyon/zk/base/rotation.h.
    SetRandomSeed (base::Uniform) is not modelled. The host is little-endian, as in BufferModel. *)
From Coq Require Import ZArith List Bool.
From Verif Require Import BigIntModel PrimeFieldModel BufferModel.
Import ListNotations.
Open Scope Z_scope.

Definition u32 (x : Z) : Z := x mod 2 ^ 32.

(** rng.h:17-21 NextUint64 for a generator whose NextUint32 is [next]; [None] is undefined behaviour. *)
Definition next_u64 {S : Type} (next : S -> option (Z * S)) (s : S) : option (Z * S) :=
  match next s with
  | None => None
  | Some (lo, s1) =>
      match next s1 with
      | None => None
      | Some (hi, s2) => Some (Z.lor (trunc 64 (Z.shiftl hi 32)) lo, s2)
      end
  end.
(** [n] successive results of a generator. *)
Fixpoint draw {S A : Type} (next : S -> option (A * S)) (n : nat) (s : S) : option (list A * S) :=
  match n with
  | O => Some ([], s)
  | Datatypes.S n' =>
      match next s with
      | None => None
      | Some (a, s1) =>
          match draw next n' s1 with
          | None => None
          | Some (l, s2) => Some (a :: l, s2)
          end
      end
  end.

(** base/buffer/endian_auto_reset.h: the endianness is set, and put back when the scope ends. *)
Definition set_endian (e : endian) (b : buffer) : buffer := Buf (bytes b) (off b) e (growable b).

(** The little-endian 32-bit word at byte [4 i] (memcpy to a uint32_t, absl::little_endian::Load32,
    reinterpret_cast<const uint32_t*>(p)[i]). *)
Definition word_at (l : list Z) (i : nat) : Z := le_value (firstn 4 (skipn (4 * i) l)).

(** ** XORShiftRNG *)
Record xs := XS { xs_x : Z; xs_y : Z; xs_z : Z; xs_w : Z }.
(** xor_shift_rng.h:84-87. *)
Definition xs_default : xs := XS 195911405 195911405 195911405 195911405.
(** xor_shift_rng.h:42-52 SetSeed. *)
Definition xs_set_seed (seed : list Z) (s : xs) : bool * xs :=
  if negb (length seed =? 16)%nat then (false, s)
  else (true, XS (word_at seed 0) (word_at seed 1) (word_at seed 2) (word_at seed 3)).
(** xor_shift_rng.h:54-61 NextUint32. *)
Definition xs_next (s : xs) : option (Z * xs) :=
  let t := Z.lxor (xs_x s) (u32 (Z.shiftl (xs_x s) 11)) in
  let w := Z.lxor (Z.lxor (xs_w s) (Z.shiftr (xs_w s) 19)) (Z.lxor t (Z.shiftr t 8)) in
  Some (w, XS (xs_y s) (xs_z s) (xs_w s) w).
Definition xs_ty : ty := TPair (TInt W4) (TPair (TInt W4) (TPair (TInt W4) (TInt W4))).
(** xor_shift_rng.h:63-73 ReadFromBuffer. *)
Definition xs_read (b : buffer) (s : xs) : bool * xs * buffer :=
  match read xs_ty (set_endian Little b) with
  | (Some (x, (y, (z, w))), b') => (true, XS x y z w, set_endian (end_ b) b')
  | (None, b') => (false, s, set_endian (end_ b) b')
  end.
(** xor_shift_rng.h:75-78 WriteToBuffer. *)
Definition xs_write (s : xs) (b : buffer) : bool * buffer :=
  let '(r, b') := write xs_ty (xs_x s, (xs_y s, (xs_z s, xs_w s))) (set_endian Little b) in
  (r, set_endian (end_ b) b').

(** ** ChaCha20RNG *)
Record cc := CC { cc_index : Z; cc_input : list Z; cc_output : list Z }.
(** block_rng.h:14: kOutputSize / sizeof(uint32_t). *)
Definition max_index : Z := 64 / 4.
Fixpoint set_nth (i : nat) (v : Z) (l : list Z) : list Z :=
  match l, i with
  | [], _ => []
  | _ :: r, O => v :: r
  | x :: r, S i' => x :: set_nth i' v r
  end.
(** cha_cha20_rng.h:54-63 SetSeed: only input_[4..11] is written. *)
Definition cc_set_seed (seed : list Z) (s : cc) : bool * cc :=
  if negb (length seed =? 32)%nat then (false, s)
  else (true, CC (cc_index s)
                 (fold_left (fun inp i => set_nth (i + 4) (word_at seed i) inp) (seq 0 8) (cc_input s))
                 (cc_output s)).
(** cha_cha20_rng.h:38, 86-101: the public constructor, with the zero seed. input_ and output_ are not
    initialised before; [junk_in] and [junk_out] are what they hold. *)
Definition cc_new (junk_in junk_out : list Z) : cc :=
  let i1 := set_nth 3 1797285236 (set_nth 2 2036477234 (set_nth 1 857760878 (set_nth 0 1634760805 junk_in))) in
  let s := snd (cc_set_seed (repeat 0 32) (CC max_index i1 junk_out)) in
  CC (cc_index s) (set_nth 15 0 (set_nth 14 0 (set_nth 13 0 (set_nth 12 0 (cc_input s))))) (cc_output s).

Section ChaCha.
  (** The function chacha_core of BoringSSL (exported by third_party/boringssl/chacha_core.patch): sixteen
      words to sixty-four bytes. Its rounds are not in /repo; every theorem holds for any such function. *)
  Variable core : list Z -> list Z.

  (** cha_cha20_rng.h:111-116 Update. *)
  Definition cc_update (s : cc) : cc :=
    let c12 := u32 (nth 12 (cc_input s) 0 + 1) in
    let i1 := set_nth 12 c12 (cc_input s) in
    let i2 := if c12 =? 0 then set_nth 13 (u32 (nth 13 i1 0 + 1)) i1 else i1 in
    CC (cc_index s) i2 (core (cc_input s)).
  (** cha_cha20_rng.h:118-120 Get: an index past the end of output_ is undefined behaviour. *)
  Definition cc_get (s : cc) (i : Z) : option Z :=
    if i <? max_index then Some (word_at (cc_output s) (Z.to_nat i)) else None.
  (** block_rng.h:21-28 NextUint32. *)
  Definition cc_next (s : cc) : option (Z * cc) :=
    let s1 := if cc_index s =? max_index
              then let s' := cc_update s in CC 0 (cc_input s') (cc_output s') else s in
    match cc_get s1 (cc_index s1) with
    | None => None
    | Some v => Some (v, CC (trunc 64 (cc_index s1 + 1)) (cc_input s1) (cc_output s1))
    end.
End ChaCha.

Definition cc_read_ty : ty := TPair (TInt W8) (TPair (TArr 64 (TInt W1)) (TArr 64 (TInt W1))).
Definition cc_write_ty : ty := TPair (TInt W8) (TPair (TArr 16 (TInt W4)) (TArr 64 (TInt W1))).
(** cha_cha20_rng.h:65-76 ReadFromBuffer: the sixty-four input bytes are copied over input_. *)
Definition cc_read (b : buffer) (s : cc) : bool * cc * buffer :=
  match read cc_read_ty (set_endian Little b) with
  | (Some (i, (inp, out)), b') => (true, CC i (map (word_at inp) (seq 0 16)) out, set_endian (end_ b) b')
  | (None, b') => (false, s, set_endian (end_ b) b')
  end.
(** cha_cha20_rng.h:78-81 WriteToBuffer. *)
Definition cc_write (s : cc) (b : buffer) : bool * buffer :=
  let '(r, b') := write cc_write_ty (cc_index s, (cc_input s, cc_output s)) (set_endian Little b) in
  (r, set_endian (end_ b) b').

(** ** Sampling field elements *)
(** prime_field_conversion.h:16-24 FromUint128. *)
Definition from_uint128 (c : pf_config) (v : Z) : list Z :=
  pf_of_bigint c [v mod 2 ^ 64; v / 2 ^ 64; 0; 0].
(** prime_field_conversion.h:28-51 FromUint512 of eight limbs; kMontgomeryR3 is modulus.h's. *)
Definition from_uint512 (c : pf_config) (l : list Z) : list Z :=
  let d0 := firstn 4 l in
  let d1 := firstn 4 (skipn 4 l) in
  let d2 := bi_montgomery_reduce false (bi_mul_extend d0 (cfg_r2 c)) (cfg_modulus c) (cfg_inverse64 c) in
  let d3 := bi_montgomery_reduce false (bi_mul_extend d1 (montgomery_r3 (cfg_modulus c)))
              (cfg_modulus c) (cfg_inverse64 c) in
  pf_add c d2 d3.
(** prime_field_conversion.h:53-61 FromUint512 of sixty-four bytes. *)
Definition from_uint512_bytes (c : pf_config) (l : list Z) : list Z :=
  from_uint512 c (map (fun i => le_value (firstn 8 (skipn (8 * i) l))) (seq 0 8)).
(** random_field_generator.h:20-28 Generate. *)
Definition generate {S : Type} (next : S -> option (Z * S)) (c : pf_config) (s : S) : option (list Z * S) :=
  match draw (next_u64 next) 8 s with
  | None => None
  | Some (limbs, s') => Some (from_uint512 c limbs, s')
  end.

(** ** Blinder *)
(** blinder.h:33-45 Blind: RowIndex is uint32_t; [gen] is the generator's Generate. *)
Definition blind {F S : Type} (gen : S -> option (F * S)) (factors : Z) (include_last_row : bool)
    (evals : list F) (s : S) : option (bool * list F * S) :=
  let size := u32 (Z.of_nat (length evals)) in
  let rows := if include_last_row then u32 (factors + 1) else factors in
  if size <? rows then Some (false, evals, s)
  else
    let start := size - rows in
    match draw gen (Z.to_nat (size - start)) s with
    | None => None
    | Some (l, s') =>
        Some (true, firstn (Z.to_nat start) evals ++ l ++ skipn (Z.to_nat size) evals, s')
    end.

(** ** Rotation *)
(** base::CheckedNumeric<int32_t>: a result outside the range of int32_t is an error. *)
Definition checked_i32 (x : Z) : option Z := if (- 2 ^ 31 <=? x) && (x <? 2 ^ 31) then Some x else None.
(** rotation.h:45-51 GetIndex; [None]: the process stops (CHECK_GT or ValueOrDie). The remainder is C++'s,
    with the sign of the dividend. *)
Definition get_index (value idx scale size : Z) : option Z :=
  if negb (0 <? size) then None
  else
    match checked_i32 (value * scale) with
    | None => None
    | Some p =>
        match checked_i32 (idx + p) with
        | None => None
        | Some q =>
            let r := Z.rem q size in
            Some (if r <? 0 then r + size else r)
        end
    end.
