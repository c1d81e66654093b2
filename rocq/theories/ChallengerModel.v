(** Model of the Fiat-Shamir challengers: tachyon/crypto/challenger/challenger.h (CH), duplex_challenger.h (DC), multi_field32_challenger.h (MC), multi_field32_conversions.h (CV) and hash_challenger.h (HC). Only definitions.
    [None] is undefined behaviour or a failed CHECK: an index outside the state, or back() of an empty vector. *)
From Coq Require Import ZArith List Bool Arith.
From Verif Require Import BigIntModel SpongeModel ParallelizeModel.
Import ListNotations.
Open Scope nat_scope.

(** What a caller does with a challenger: Observe and Sample, CH:33-59. *)
Inductive op (F : Type) := Observe (x : F) | Sample.
Arguments Observe {F} x.
Arguments Sample {F}.

(** Running a list of operations; the challenges in order, and the challenger at the end. *)
Fixpoint run {F C : Type} (observe : C -> F -> option C) (sample : C -> option (F * C)) (ops : list (op F)) (c : C) : option (list F * C) :=
  match ops with
  | [] => Some ([], c)
  | Observe x :: r => match observe c x with Some c' => run observe sample r c' | None => None end
  | Sample :: r => match sample c with
                   | Some (y, c') => match run observe sample r c' with Some (ys, c'') => Some (y :: ys, c'') | None => None end
                   | None => None
                   end
  end.

(** output_buffer_.back() and pop_back(). *)
Fixpoint pop_back {F : Type} (l : list F) : option (F * list F) :=
  match l with
  | [] => None
  | [x] => Some (x, [])
  | x :: r => match pop_back r with Some (y, r') => Some (y, x :: r') | None => None end
  end.

(** The members state_, input_buffer_ and output_buffer_: DC:84-86, MC:91-93. [B] is the field of the permutation. *)
Record duplex (F B : Type) := mk_duplex { state : list B; input_buffer : list F; output_buffer : list F }.
Arguments mk_duplex {F B} state input_buffer output_buffer.
Arguments state {F B} _.
Arguments input_buffer {F B} _.
Arguments output_buffer {F B} _.

(** DoObserve, DoSample and Duplex are the same text in the two duplex challengers but for the two loops between the buffers and the state: [put] (DC:67-69, MC:71-77) and [get] (DC:75-77, MC:83-88). *)
Section Duplex.
  Context {F B : Type}.
  Variables (put : list F -> list B -> option (list B)) (get : list B -> option (list F)) (perm : list B -> list B) (R : nat).

  (** Duplex, DC:66-78, MC:70-89. *)
  Definition duplexing (c : duplex F B) : option (duplex F B) :=
    match put (input_buffer c) (state c) with
    | Some l => match get (perm l) with Some o => Some (mk_duplex (perm l) [] o) | None => None end
    | None => None
    end.
  (** DoObserve, DC:46-54, MC:50-58. *)
  Definition observe (c : duplex F B) (x : F) : option (duplex F B) :=
    let c' := mk_duplex (state c) (input_buffer c ++ [x]) [] in
    if length (input_buffer c') =? R then duplexing c' else Some c'.
  (** DoSample, DC:56-64, MC:60-68. *)
  Definition sample (c : duplex F B) : option (F * duplex F B) :=
    let c' := if negb (length (input_buffer c) =? 0) || (length (output_buffer c) =? 0) then duplexing c else Some c in
    match c' with
    | Some c' => match pop_back (output_buffer c') with
                 | Some (x, o) => Some (x, mk_duplex (state c') (input_buffer c') o)
                 | None => None
                 end
    | None => None
    end.
End Duplex.

(** DuplexChallenger over a permutation of W lanes: DC:67-69 and DC:75-77. *)
Definition duplex_put {F : Type} (b l : list F) : option (list F) := write_from l 0 b.
Definition duplex_get {F : Type} (W : nat) (l : list F) : option (list F) := read_from l 0 W.
Definition duplex_observe {F : Type} (perm : list F -> list F) (R W : nat) := observe (B := F) duplex_put (duplex_get W) perm R.
Definition duplex_sample {F : Type} (perm : list F -> list F) (W : nat) := sample (B := F) duplex_put (duplex_get W) perm.

(** Reduce, CV:22-46, on the canonical values of the small elements (uint32_t): pairs of 32-bit values per 64-bit limb, then modulo the big modulus [P]. [limbs] is BigInt::kLimbNums (CV:27 is a CHECK). The remainder of the division by the modulus is the mathematical one. *)
Fixpoint pack (vs : list Z) : Z :=
  match vs with
  | [] => 0%Z
  | [a] => trunc 32 a
  | a :: b :: r => (trunc 64 (trunc 32 a + trunc 64 (trunc 32 b * 2 ^ 32)) + 2 ^ 64 * pack r)%Z
  end.
Definition reduce (limbs : nat) (P : Z) (vs : list Z) : option Z := if length vs <? limbs * 2 then Some (pack vs mod P)%Z else None.
(** Split, CV:51-69: the i-th of the [n] lowest 64-bit digits; [to_small] is line 62 or 64. *)
Fixpoint split (to_small : Z -> Z) (n : nat) (v : Z) : list Z :=
  match n with
  | O => []
  | S n' => to_small (trunc 64 v) :: split to_small n' (v / 2 ^ 64)%Z
  end.
(** CV:61-62 (the canonical value of the element whose Montgomery form is digit 2^32 mod p) and CV:64 (the constructor keeps the low 32 bits, small_prime_field.h:45). *)
Definition to_small_montgomery (p digit : Z) : Z := (digit mod p)%Z.
Definition to_small_plain (digit : Z) : Z := trunc 32 digit.

(** MultiField32Challenger, MC:71-77: lane i gets the i-th group of N = kNumFElements inputs. *)
Fixpoint multi_put (fuel limbs : nat) (P : Z) (N i : nat) (b : list Z) (l : list Z) : option (list Z) :=
  match b with
  | [] => Some l
  | _ => match fuel with
         | O => None
         | S fuel' => match reduce limbs P (firstn N b) with
                      | Some v => match write l i v with Some l' => multi_put fuel' limbs P N (S i) (skipn N b) l' | None => None end
                      | None => None
                      end
         end
  end.
(** MC:83-88. *)
Definition multi_get (to_small : Z -> Z) (N W : nat) (l : list Z) : option (list Z) :=
  match read_from l 0 W with Some vs => Some (concat (map (split to_small N) vs)) | None => None end.
Definition multi_observe (limbs : nat) (P : Z) (to_small : Z -> Z) (N W : nat) (perm : list Z -> list Z) :=
  observe (fun b l => multi_put (length b) limbs P N 0 b l) (multi_get to_small N W) perm (N * W).
Definition multi_sample (limbs : nat) (P : Z) (to_small : Z -> Z) (N W : nat) (perm : list Z -> list Z) :=
  sample (fun b l => multi_put (length b) limbs P N 0 b l) (multi_get to_small N W) perm.

(** HashChallenger, HC:55-57. *)
Record hash_challenger (F : Type) := mk_hash { hash_input : list F; hash_output : list F }.
Arguments mk_hash {F} hash_input hash_output.
Arguments hash_input {F} _.
Arguments hash_output {F} _.
(** DoObserve, HC:32-36. *)
Definition hash_observe {F : Type} (c : hash_challenger F) (x : F) : option (hash_challenger F) := Some (mk_hash (hash_input c ++ [x]) []).
(** DoSample and Flush, HC:38-54. *)
Definition hash_sample {F : Type} (hash : list F -> list F) (c : hash_challenger F) : option (F * hash_challenger F) :=
  let c' := if length (hash_output c) =? 0 then let o := hash (hash_input c) in mk_hash o o else c in
  match pop_back (hash_output c') with Some (x, o) => Some (x, mk_hash (hash_input c') o) | None => None end.

(** ** Proof of work *)
Section Grind.
  Context {F C : Type}.
  Variables (observe : C -> F -> option C) (sample : C -> option (F * C)) (to_u32 : F -> Z) (of_u32 : Z -> F) (succ : F -> F).

  (** SampleBits, CH:75-87. The DCHECKs are the caller's obligation. *)
  Definition sample_bits (bits : Z) (c : C) : option (Z * C) :=
    match sample c with Some (x, c') => Some (Z.land (to_u32 x) (2 ^ bits - 1), c') | None => None end.
  (** CheckWitness, CH:130-133. *)
  Definition check_witness (bits : Z) (c : C) (w : F) : option (bool * C) :=
    match observe c w with
    | Some c' => match sample_bits bits c' with Some (v, c'') => Some (Z.eqb v 0, c'') | None => None end
    | None => None
    end.

  (** One worker, CH:100-118: about to load the flag (line 107), about to check the witness on a copy of the challenger (108-109), about to store the flag (110), or returned; [Done None] is the sentinel 2^32 - 1.  [f] is the field element that line 115 increments along with i. *)
  Inductive worker := AtLoad (i : Z) (f : F) (last : Z) | AtCheck (i : Z) (f : F) (last : Z) | AtStore (i : Z) | Done (r : option Z) | Crash.

  (** One atomic step of a worker, with the shared flag.  The flag is the only shared variable that is written, and it is atomic, so that every execution is an interleaving of these steps. *)
  Definition worker_step (bits : Z) (c : C) (found : bool) (w : worker) : option (bool * worker) :=
    match w with
    | AtLoad i f last => Some (found, if (i <? last)%Z then (if found then Done None else AtCheck i f last) else Done None)
    | AtCheck i f last => Some (found, match check_witness bits c f with
                                       | Some (true, _) => AtStore i
                                       | Some (false, _) => AtLoad (i + 1)%Z (succ f) last
                                       | None => Crash
                                       end)
    | AtStore i => Some (true, Done (Some i))
    | Done _ => None
    | Crash => None
    end.

  (** One step of the j-th worker, and all executions. *)
  Inductive grind_step (bits : Z) (c : C) : bool * list worker -> bool * list worker -> Prop :=
    | grind_step_worker : forall found found' ws1 w w' ws2, worker_step bits c found w = Some (found', w') ->
        grind_step bits c (found, ws1 ++ w :: ws2) (found', ws1 ++ w' :: ws2).
  Inductive grind_steps (bits : Z) (c : C) : nat -> bool * list worker -> bool * list worker -> Prop :=
    | grind_refl : forall s, grind_steps bits c 0 s s
    | grind_more : forall n s s' s'', grind_step bits c s s' -> grind_steps bits c n s' s'' -> grind_steps bits c (S n) s s''.

  (** CH:98-105: ParallelizeMap over the size of the range, and each worker's bounds in uint32_t arithmetic. *)
  Definition grind_init (threads from to : Z) : list worker :=
    let size := if (from <? to)%Z then (to - from)%Z else 0%Z in
    map (fun t => match t with (offset, _, _) =>
                    let chunk := trunc 32 (size_per_thread threads size None) in
                    let start := trunc 32 (from + trunc 32 (trunc 32 offset * chunk)) in
                    let last := trunc 32 (start + Z.min (trunc 32 (to - start)) chunk) in
                    AtLoad start (of_u32 start) last
                  end)
        (chunk_calls size (size_per_thread threads size None)).

  (** CH:119-127, once all workers have returned [rs]: the first witness found is checked again on the challenger itself.  [None] is a failed CHECK.  The overload with a given witness is not modelled. *)
  Fixpoint first_found (rs : list (option Z)) : option Z :=
    match rs with [] => None | Some i :: _ => Some i | None :: r => first_found r end.
  Definition grind_result (bits : Z) (c : C) (rs : list (option Z)) : option (F * C) :=
    match first_found rs with
    | Some i => match check_witness bits c (of_u32 i) with Some (true, c') => Some (of_u32 i, c') | _ => None end
    | None => None
    end.
End Grind.
Arguments AtLoad {F} i f last.
Arguments AtCheck {F} i f last.
Arguments AtStore {F} i.
Arguments Done {F} r.
Arguments Crash {F}.
