(** Model of base/parallelize.h and base/openmp_util.h. Only definitions.
    Sizes are mathematical integers; size_t wrap-around is explicit through [trunc 64]. *)
From Coq Require Import ZArith List Bool.
From Verif Require Import BigIntModel.
Import ListNotations.
Open Scope Z_scope.

(** openmp_util.h:46-59 GetSizePerThread. [threads] is omp_get_max_threads() (1 without OpenMP). *)
Definition size_per_thread (threads total : Z) (threshold : option Z) : Z :=
  let big := match threshold with None => true | Some t => t <? total end in
  if big then trunc 64 (trunc 64 (total + threads) - 1) / threads else total.

(** openmp_util.h:63-67 GetNumElementsPerThread: the threshold argument is not forwarded. *)
Definition num_elements_per_thread (threads size : Z) (threshold : option Z) : Z :=
  size_per_thread threads size None.

(** parallelize.h:110, 130, ...: num_chunks = (size + chunk_size - 1) / chunk_size. *)
Definition num_chunks (size chunk : Z) : Z := trunc 64 (trunc 64 (size + chunk) - 1) / chunk.

(** parallelize.h:26-28, 45: length of the [i]-th chunk. *)
Definition chunk_len (size n chunk i : Z) : Z :=
  if i =? trunc 64 (n - 1) then trunc 64 (size - trunc 64 (i * chunk)) else chunk.

(** parallelize.h:105-121 ParallelizeByChunkSize: the callback invocations it makes, in index order, as
    (index, start, length). [chunk_size == 0] makes none. The OpenMP loop may run them in any order
    and concurrently; see [par_step]. *)
Definition chunk_calls (size chunk : Z) : list (Z * Z * Z) :=
  if chunk =? 0 then []
  else
    let n := num_chunks size chunk in
    map (fun k => let i := Z.of_nat k in (i, trunc 64 (i * chunk), chunk_len size n chunk i))
        (seq 0 (Z.to_nat n)).

(** Replacing the [len] elements from [start] by applying [f] to that slice. [None] models a span
    that leaves the container (out-of-bounds access). *)
Definition slice {A} (l : list A) (start len : nat) : list A := firstn len (skipn start l).
Definition on_slice {A} (start len : nat) (f : list A -> list A) (l : list A) : option (list A) :=
  if (Nat.leb (start + len) (length l)) then
    Some (firstn start l ++ f (slice l start len) ++ skipn (start + len) l)
  else None.

(** parallelize.h:105-121, sequential reading (the build without OpenMP, or one thread): callbacks run
    in index order. [cb i chunk_size s] is the content the callback leaves in a chunk that held [s]. *)
Fixpoint run_calls {A} (cb : Z -> Z -> list A -> list A) (chunk : Z) (calls : list (Z * Z * Z))
  (l : list A) : option (list A) :=
  match calls with
  | [] => Some l
  | (i, start, len) :: r =>
      match on_slice (Z.to_nat start) (Z.to_nat len) (cb i chunk) l with
      | None => None
      | Some l' => run_calls cb chunk r l'
      end
  end.
Definition parallelize_by_chunk {A} (chunk : Z) (cb : Z -> Z -> list A -> list A) (l : list A)
  : option (list A) := run_calls cb chunk (chunk_calls (Z.of_nat (length l)) chunk) l.

(** parallelize.h:175-183 Parallelize(container, callback, threshold). *)
Definition parallelize {A} (threads : Z) (threshold : option Z) (cb : Z -> Z -> list A -> list A)
  (l : list A) : option (list A) :=
  parallelize_by_chunk (num_elements_per_thread threads (Z.of_nat (length l)) threshold) cb l.

(** Concurrent execution of the OpenMP loop: every call is a sequence of atomic steps on its own
    chunk, and a scheduler picks which call makes its next step. [progs] holds, per call, what is
    left to do. Modelling the body as steps on the chunk only is the callback's contract (it is
    handed a span); memory accesses are sequentially consistent. *)
Record par_state (A : Type) := { ps_mem : list A; ps_progs : list (list (list A -> list A)) }.
Arguments ps_mem {A}. Arguments ps_progs {A}. Arguments Build_par_state {A}.

Fixpoint set_nth {B} (k : nat) (x : B) (l : list B) : list B :=
  match l, k with
  | [], _ => []
  | _ :: r, O => x :: r
  | y :: r, S k' => y :: set_nth k' x r
  end.

Inductive par_step {A} (calls : list (Z * Z * Z)) : par_state A -> par_state A -> Prop :=
| par_step_intro : forall k i start len f rest mem mem' progs,
    nth_error calls k = Some (i, start, len) ->
    nth_error progs k = Some (f :: rest) ->
    on_slice (Z.to_nat start) (Z.to_nat len) f mem = Some mem' ->
    par_step calls (Build_par_state mem progs)
                   (Build_par_state mem' (set_nth k rest progs)).

Inductive par_steps {A} (calls : list (Z * Z * Z)) : par_state A -> par_state A -> Prop :=
| par_steps_refl : forall s, par_steps calls s s
| par_steps_step : forall s t u, par_step calls s t -> par_steps calls t u -> par_steps calls s u.

(** parallelize.h:206-256 ParallelizeMapByChunkSize: values[i] = callback(chunk i). *)
Definition parallelize_map_by_chunk {A B} (chunk : Z) (cb : Z -> Z -> list A -> B) (l : list A)
  : list B :=
  map (fun c => match c with (i, start, len) =>
         cb i chunk (slice l (Z.to_nat start) (Z.to_nat len)) end)
      (chunk_calls (Z.of_nat (length l)) chunk).

(** parallelize.h:283-294 ParallelizeFill. *)
Definition parallelize_fill {A} (threads : Z) (threshold : option Z) (v : A) (l : list A)
  : option (list A) :=
  parallelize threads threshold (fun _ _ s => map (fun _ => v) s) l.

(** std::vector::resize: truncate, or append value-initialised elements. *)
Definition vec_resize {A} (dflt : A) (l : list A) (n : nat) : list A :=
  firstn n l ++ repeat dflt (n - length l).

(** parallelize.h:296-315 ParallelizeResize(container, size, threshold). [cap] is the container's
    capacity. [dflt] is the value-initialised element (what std::vector(size) contains). *)
Definition parallelize_resize {A} (dflt : A) (threads : Z) (threshold : option Z) (cap : Z)
  (l : list A) (size : nat) : option (list A) :=
  if Z.of_nat size <? cap then Some (vec_resize dflt l size)
  else
    let fresh := repeat dflt size in
    if (Nat.leb (length l) size) then
      match parallelize threads threshold
              (fun i c s => map (fun k => nth (Z.to_nat (i * c) + k) l dflt) (seq 0 (length s)))
              (firstn (length l) fresh) with
      | None => None
      | Some copied => Some (copied ++ skipn (length l) fresh)
      end
    else None  (* MakeSpan(new_container).first(container.size()) out of range *).

(** parallelize.h:317-347 ParallelizeResize(container, size, value, threshold). In the first branch
    the span is absl::MakeSpan(container).last(size - old_size), a size_t subtraction. *)
Definition parallelize_resize_value {A} (dflt value : A) (threads : Z) (threshold : option Z)
  (cap : Z) (l : list A) (size : nat) : option (list A) :=
  if Z.of_nat size <? cap then
    let resized := vec_resize dflt l size in
    let n := trunc 64 (Z.of_nat size - Z.of_nat (length l)) in
    if n <=? Z.of_nat size then
      let k := (size - Z.to_nat n)%nat in
      match parallelize threads threshold (fun _ _ s => map (fun _ => value) s) (skipn k resized) with
      | None => None
      | Some tail => Some (firstn k resized ++ tail)
      end
    else None  (* last(n) with n > size(): undefined / throws *)
  else
    parallelize threads threshold
      (fun i c s => map (fun k => let j := (Z.to_nat (i * c) + k)%nat in
                                  if (Nat.ltb j (length l)) then nth j l dflt else value)
                        (seq 0 (length s)))
      (repeat dflt size).
