(** Model of math/base/semigroups.h and math/base/groups.h (and of the bit iterators they use).
    Only definitions. The element type and its operations are parameters: the code is a CRTP
    template over them. *)
From Coq Require Import ZArith List Bool.
From Verif Require Import BigIntModel BitsModel ParallelizeModel.
Import ListNotations.
Open Scope Z_scope.

(** bit_iterator.h:31-55 BitIteratorBE::begin(value, skip_leading_zeros) .. end: indices 64N-1 down to
    0, leading zero bits skipped (little-endian branch). *)
Fixpoint skip_leading (l : list bool) : list bool :=
  match l with false :: r => skip_leading r | _ => l end.
Definition bits_be_skipped (e : list Z) : list bool :=
  skip_leading (map (bi_test_bit e) (rev (seq 0 (64 * length e)))).

(** bit_iterator.h:121-166 BitIteratorLE::begin .. end(value, skip_trailing_zeros = true): [end]
    starts at index 64N, walks down past clear bits and steps one up. *)
Fixpoint le_end (e : list Z) (i : nat) : nat :=
  if bi_test_bit e i then S i else match i with O => O | S i' => le_end e i' end.
Definition bits_le_trimmed (e : list Z) : list bool :=
  map (bi_test_bit e) (seq 0 (le_end e (64 * length e))).

Section Semigroup.
  Context {G : Type}.
  Variables (one : G) (mul : G -> G -> G) (sq : G -> G) (is_one : G -> bool).

  (** semigroups.h:274-299 DoPow (also 136-148 Pow and, read additively, 541-566 DoScalarMul):
      [sq] is SquareInPlace/DoubleInPlace, [mul] is MulInPlace/AddInPlace. *)
  Definition do_pow (e : list Z) (g : G) : G :=
    fold_left (fun ret (b : bool) => let ret := sq ret in if b then mul ret g else ret)
              (bits_be_skipped e) one.

  (** semigroups.h:150-193 ConstPow<Power> and 382-416 ConstScalarMul<Scalar>: the unrolled cases 0..7,
      otherwise DoPow(BigInt<1>(Power)). *)
  Definition const_pow (p : Z) (g : G) : G :=
    match p with
    | 0 => one
    | 1 => g
    | 2 => sq g
    | 3 => mul (sq g) g
    | 4 => sq (sq g)
    | 5 => let g4 := sq (sq g) in mul g4 g
    | 6 => let g2 := sq g in let g4 := sq g2 in mul g4 g2
    | 7 => let g2 := sq g in let g4 := sq g2 in mul (mul g4 g2) g
    | _ => do_pow [p] g
    end.

  (** semigroups.h:197-213 PowWithTable. Reading past the table is undefined: [None]. *)
  Fixpoint pow_table_loop (table : list G) (bits : list bool) (i : nat) (g : G) : option G :=
    match bits with
    | [] => Some g
    | b :: r =>
        if b then match nth_error table i with
                  | None => None
                  | Some t => pow_table_loop table r (S i) (mul g t)
                  end
        else pow_table_loop table r (S i) g
    end.
  Definition pow_with_table (table : list G) (e : list Z) : option G :=
    pow_table_loop table (bits_le_trimmed e) 0 one.

  (** semigroups.h:262-268 ExpPowOfTwo. *)
  Definition exp_pow_of_two (log_n : nat) (g : G) : G := Nat.iter log_n sq g.

  (** semigroups.h:226-231: the callback's fill loop "for i < size-1: chunk[i] = pow; pow *= g" and
      chunk.back() = pow, for a chunk of the given (positive) size. *)
  Fixpoint fill_powers (g pow : G) (size : nat) : list G :=
    match size with
    | O => []
    | S O => [pow]
    | S m => pow :: fill_powers g (mul pow g) m
    end.

  (** semigroups.h:217-234 GetSuccessivePowers. [zero] is the default element of vector(size). *)
  Definition get_successive_powers (threads : Z) (zero : G) (size : nat) (g c : G) : option (list G) :=
    parallelize threads None
      (fun i chunk s =>
         let pow := do_pow [trunc 64 (i * chunk)] g in
         let pow := if is_one c then pow else mul pow c in
         fill_powers g pow (length s))
      (repeat zero size).

  (** semigroups.h:470-487 GetSuccessiveScalarMuls (no constant factor). *)
  Definition get_successive_scalar_muls (threads : Z) (zero : G) (size : nat) (g : G) : option (list G) :=
    parallelize threads None
      (fun i chunk s => fill_powers g (do_pow [trunc 64 (i * chunk)] g) (length s))
      (repeat zero size).

  (** semigroups.h:240-260 GetBitRevIndexSuccessivePowers, 264-276 ...Serial: the writes
      ret[ReverseBitsLen(idx, log_size)] = pow; pow *= generator, for [todo] indices from [idx].
      [None]: undefined shift in ReverseBitsLen. *)
  Fixpoint bitrev_writes (log_size : Z) (g pow : G) (idx : Z) (todo : nat) : option (list (nat * G)) :=
    match todo with
    | O => Some []
    | S m =>
        match reverse_bits_len idx log_size with
        | None => None
        | Some r => option_map (cons (Z.to_nat r, pow)) (bitrev_writes log_size g (mul pow g) (idx + 1) m)
        end
    end.
  (** Performing writes on the shared vector; [None] when an index is out of range. *)
  Fixpoint apply_writes (ws : list (nat * G)) (ret : list G) : option (list G) :=
    match ws with
    | [] => Some ret
    | (i, x) :: r => if Nat.ltb i (length ret) then apply_writes r (set_nth i x ret) else None
    end.
  (** semigroups.h:264-276 GetBitRevIndexSuccessivePowersSerial; CheckedLog2 aborts ([None]) unless
      the size is a power of two. *)
  Definition get_bitrev_powers_serial (zero : G) (size : nat) (g c : G) : option (list G) :=
    match checked_log2 64 (Z.of_nat size) with
    | None => None
    | Some log_size =>
        match bitrev_writes log_size g c 0 size with
        | None => None
        | Some ws => apply_writes ws (repeat zero size)
        end
    end.
  (** semigroups.h:240-260: the writes of one chunk, and of all chunks of the parallel loop. *)
  Definition bitrev_chunk_writes (log_size : Z) (g c : G) (call : Z * Z * Z) : option (list (nat * G)) :=
    match call with
    | (_, start, len) =>
        let pow := do_pow [start] g in
        let pow := if is_one c then pow else mul pow c in
        bitrev_writes log_size g pow start (Z.to_nat len)
    end.
  Fixpoint bitrev_all_writes (log_size : Z) (g c : G) (calls : list (Z * Z * Z)) : option (list (nat * G)) :=
    match calls with
    | [] => Some []
    | call :: r =>
        match bitrev_chunk_writes log_size g c call, bitrev_all_writes log_size g c r with
        | Some w, Some ws => Some (w ++ ws)
        | _, _ => None
        end
    end.
  (** The parallel version: the chunks' writes, to be performed in any interleaving. *)
  Definition get_bitrev_powers_writes (threads : Z) (size : nat) (g c : G) : option (list (nat * G)) :=
    match checked_log2 64 (Z.of_nat size) with
    | None => None
    | Some log_size =>
        bitrev_all_writes log_size g c
          (chunk_calls (Z.of_nat size) (num_elements_per_thread threads (Z.of_nat size) None))
    end.
End Semigroup.

Section Linear.
  Context {G : Type}.
  Variables (zero : G) (add : G -> G -> G) (scale : G -> G).
  (** semigroups.h:493-512 LinearCombination<Forward>; [scale x] is x *= r. *)
  Definition linear_combination_forward (values : list G) : G :=
    fold_left (fun ret v => add (scale ret) v) values zero.
  Definition linear_combination_backward (values : list G) : G :=
    fold_left (fun ret v => add (scale ret) v) (rev values) zero.
  (** semigroups.h:528-555 LinearCombinationInPlace<Forward>: CHECK(size > 0), accumulate into the
      first (last) element. *)
  Definition linear_combination_in_place (forward : bool) (values : list G) : option G :=
    match (if forward then values else rev values) with
    | [] => None
    | v :: r => Some (fold_left (fun ret v => add (scale ret) v) r v)
    end.
End Linear.

Section Multi.
  Context {G S : Type}.
  Variable smul : S -> G -> G.
  (** semigroups.h:569-588 MultiScalarMulMSMB, 590-604 MSSB, 606-621 SSMB. [None]: returned false, the
      outputs are left as they were. *)
  Definition multi_scalar_mul_msmb (scalars : list S) (bases outputs : list G) : option (list G) :=
    if negb (Nat.eqb (length scalars) (length bases)) then None
    else if negb (Nat.eqb (length scalars) (length outputs)) then None
    else if Nat.eqb (length scalars) 0 then None
    else Some (map (fun sb => smul (fst sb) (snd sb)) (combine scalars bases)).
  Definition multi_scalar_mul_mssb (scalars : list S) (base : G) (outputs : list G) : option (list G) :=
    if negb (Nat.eqb (length scalars) (length outputs)) then None
    else if Nat.eqb (length scalars) 0 then None
    else Some (map (fun s => smul s base) scalars).
  Definition multi_scalar_mul_ssmb (scalar : S) (bases outputs : list G) : option (list G) :=
    if negb (Nat.eqb (length bases) (length outputs)) then None
    else if Nat.eqb (length bases) 0 then None
    else Some (map (smul scalar) bases).
End Multi.

Section BatchInverse.
  Context {F : Type}.
  Variables (zero one : F) (mul : F -> F -> F) (inverse : F -> option F) (is_zero is_one : F -> bool).

  (** groups.h:128-144, first pass: [productions] in push order and the running product. *)
  Fixpoint bi_first_pass (groups : list F) (product : F) (prods : list F) : list F * F :=
    match groups with
    | [] => (prods, product)
    | g :: r => if is_zero g then bi_first_pass r product prods
                else let p := mul product g in bi_first_pass r p (prods ++ [p])
    end.
  (** groups.h:158-176, second pass, index i from size-1 down. [it] is what productions.rbegin()
      still has in front of it. The outputs are written into [inverses]; when the call is in place the
      inputs are read from that same array ([in_place]). [None]: iterator or index out of range. *)
  Fixpoint bi_second_pass (in_place : bool) (groups : list F) (i : nat) (product_inv : F) (it : list F)
    (inverses : list F) : option (list F) :=
    match i with
    | O => Some inverses
    | S k =>
        match nth_error (if in_place then inverses else groups) k with
        | None => None
        | Some g =>
            if is_zero g then bi_second_pass in_place groups k product_inv it (set_nth k zero inverses)
            else match it with
                 | [] => None
                 | q :: it' => bi_second_pass in_place groups k (mul product_inv g) it'
                                 (set_nth k (mul product_inv q) inverses)
                 end
        end
    end.
  (** groups.h:122-178 DoBatchInverse. *)
  Definition do_batch_inverse (in_place : bool) (groups inverses : list F) (coeff : F) : option (list F) :=
    let (prods, product) := bi_first_pass groups one [one] in
    match inverse product with
    | None => None
    | Some product_inv =>
        let product_inv := if is_one coeff then product_inv else mul product_inv coeff in
        bi_second_pass in_place groups (length groups) product_inv (tl (rev prods)) inverses
    end.
  (** groups.h:107-117 BatchInverseSerial: false on size mismatch. *)
  Definition batch_inverse_serial (in_place : bool) (groups inverses : list F) (coeff : F)
    : option (list F) :=
    if Nat.eqb (length groups) (length inverses) then do_batch_inverse in_place groups inverses coeff
    else None.
  (** groups.h:75-105 BatchInverse: with OpenMP and size >= 2^(threads/2) every chunk is inverted on its
      own, otherwise the whole span. [None]: returned false, or size_t{1} << (threads/2) is undefined
      because threads/2 >= 64. *)
  Definition chunk_inverse (in_place : bool) (groups inverses : list F) (coeff : F) (call : Z * Z * Z)
    : option (list F) :=
    match call with
    | (_, start, len) =>
        do_batch_inverse in_place (slice groups (Z.to_nat start) (Z.to_nat len))
          (slice inverses (Z.to_nat start) (Z.to_nat len)) coeff
    end.
  Fixpoint all_chunks (l : list (option (list F))) : option (list F) :=
    match l with
    | [] => Some []
    | None :: _ => None
    | Some x :: r => option_map (app x) (all_chunks r)
    end.
  Definition batch_inverse (threads : Z) (in_place : bool) (groups inverses : list F) (coeff : F)
    : option (list F) :=
    if negb (Nat.eqb (length groups) (length inverses)) then None
    else
      let size := Z.of_nat (length groups) in
      if 64 <=? threads / 2 then None
      else if 2 ^ (threads / 2) <=? size then
        all_chunks (map (chunk_inverse in_place groups inverses coeff)
                        (chunk_calls size (size_per_thread threads size None)))
      else do_batch_inverse in_place groups inverses coeff.
End BatchInverse.
