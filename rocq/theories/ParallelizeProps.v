(** Property theorems C18 and C19 for base/parallelize.h. *)
From Coq Require Import ZArith List Bool Lia.
From Verif Require Import BigIntModel ParallelizeModel ParallelizeSpec ParallelizeExtra.
Import ListNotations.
Open Scope Z_scope.
Local Ltac ands := cbv zeta; repeat match goal with |- _ /\ _ => split end.

(** C18. Chunks are numbered from 0, lie back to back, are non-empty, cover [0, size) exactly, start at
    index * chunk_size and have chunk_size elements except possibly the last. *)
Theorem C18_chunks_partition : forall size chunk,
  0 <= size -> 0 < chunk -> size + chunk < 2 ^ 64 ->
  let calls := chunk_calls size chunk in
  tiles 0 0 calls size /\
  Forall (fun t => match t with (i, start, len) => start = i * chunk /\ 0 < len <= chunk end) calls /\
  (forall k i start len, nth_error calls k = Some (i, start, len) ->
     (S k < length calls)%nat -> len = chunk).
Proof. exact by_chunk_partition. Qed.
Print Assumptions C18_chunks_partition.

(** The same for the chunk size Parallelize derives from the thread count, with at most one call
    per thread. *)
Theorem C18_parallelize_partition : forall threads size threshold,
  0 < threads -> 0 <= size -> 2 * size + threads < 2 ^ 64 ->
  let chunk := num_elements_per_thread threads size threshold in
  tiles 0 0 (chunk_calls size chunk) size /\ Z.of_nat (length (chunk_calls size chunk)) <= threads.
Proof. exact container_partition. Qed.
Print Assumptions C18_parallelize_partition.

(** Every complete interleaving of the chunks' steps ends in the same container. *)
Theorem C18_any_schedule : forall (A : Type) chunk (l : list A) progs mem',
  0 < chunk -> Z.of_nat (length l) + chunk < 2 ^ 64 ->
  let calls := chunk_calls (Z.of_nat (length l)) chunk in
  length progs = length calls -> Forall (Forall keeps_length) progs ->
  par_steps calls (Build_par_state l progs) (Build_par_state mem' (repeat [] (length calls))) ->
  mem' = piecewise calls progs l.
Proof. exact (fun A => schedule_by_chunk). Qed.
Print Assumptions C18_any_schedule.

(** In particular a parallel element-wise map is the sequential map. *)
Theorem C18_parallel_map : forall (A : Type) chunk (l : list A) progs mem' (f : A -> A),
  0 < chunk -> Z.of_nat (length l) + chunk < 2 ^ 64 ->
  let calls := chunk_calls (Z.of_nat (length l)) chunk in
  length progs = length calls -> Forall (Forall keeps_length) progs ->
  Forall (fun prog => forall s, run_prog prog s = map f s) progs ->
  par_steps calls (Build_par_state l progs) (Build_par_state mem' (repeat [] (length calls))) ->
  mem' = map f l.
Proof. exact (fun A => schedule_map). Qed.
Print Assumptions C18_parallel_map.

(** No chunk ever reaches outside the container, so a call with work left can always continue. *)
Theorem C18_no_out_of_bounds : forall (A : Type) chunk (l : list A) progs s k f rest,
  0 < chunk -> Z.of_nat (length l) + chunk < 2 ^ 64 ->
  let calls := chunk_calls (Z.of_nat (length l)) chunk in
  length progs = length calls -> Forall (Forall keeps_length) progs ->
  par_steps calls (Build_par_state l progs) s -> nth_error (ps_progs s) k = Some (f :: rest) ->
  exists t, par_step calls s t /\ ps_progs t = set_nth k rest (ps_progs s).
Proof. exact (fun A => progress_by_chunk). Qed.
Print Assumptions C18_no_out_of_bounds.

Theorem C18_map_by_chunk : forall (A B : Type) chunk (cb : Z -> Z -> list A -> B) (l : list A),
  0 < chunk -> Z.of_nat (length l) + chunk < 2 ^ 64 ->
  parallelize_map_by_chunk chunk cb l =
    map (fun c => cb (fst (fst c)) chunk (piece l c)) (chunk_calls (Z.of_nat (length l)) chunk) /\
  concat (parallelize_map_by_chunk chunk (fun _ _ s => s) l) = l.
Proof. exact (fun A B chunk cb l H1 H2 => conj (map_by_chunk_spec chunk cb l) (map_pieces chunk l H1 H2)). Qed.
Print Assumptions C18_map_by_chunk.

Theorem C18_fill : forall (A : Type) threads threshold (v : A) l,
  0 < threads -> 2 * Z.of_nat (length l) + threads < 2 ^ 64 ->
  parallelize_fill threads threshold v l = Some (repeat v (length l)).
Proof. exact (fun A => fill_spec). Qed.
Print Assumptions C18_fill.

Example C18_nonvacuous :
  chunk_calls 7 3 = [(0, 0, 3); (1, 3, 3); (2, 6, 1)] /\
  chunk_calls 10 (num_elements_per_thread 4 10 None) = [(0, 0, 3); (1, 3, 3); (2, 6, 3); (3, 9, 1)] /\
  parallelize 3 None (fun i c s => map (fun x => x + i * c) s) [1; 1; 1; 1; 1] = Some [1; 1; 3; 3; 5].
Proof. ands; vm_compute; reflexivity. Qed.

(** An interleaved execution of two chunks, two steps each. *)
Example C18_nonvacuous_schedule :
  let inc := map (Z.add 1) in let dbl := map (Z.mul 2) in
  let calls := chunk_calls 3 2 in
  par_steps calls (Build_par_state [1; 2; 3] [[inc; dbl]; [dbl; inc]])
                  (Build_par_state [4; 6; 7] (repeat [] (length calls))).
Proof.
  cbv zeta.
  eapply par_steps_step; [eapply (par_step_intro _ 1); reflexivity|].
  eapply par_steps_step; [eapply (par_step_intro _ 0); reflexivity|].
  eapply par_steps_step; [eapply (par_step_intro _ 0); reflexivity|].
  eapply par_steps_step; [eapply (par_step_intro _ 1); reflexivity|].
  apply par_steps_refl.
Qed.

(** C19. Resize without a fill value is vector::resize. *)
Theorem C19_resize : forall (A : Type) (dflt : A) threads threshold cap l size,
  0 < threads -> 2 * Z.of_nat (length l) + threads < 2 ^ 64 -> Z.of_nat (length l) <= cap ->
  parallelize_resize dflt threads threshold cap l size = Some (resized l size dflt).
Proof. exact (fun A => resize_spec). Qed.
Print Assumptions C19_resize.

(** With a fill value it is vector::resize as long as it does not shrink ... *)
Theorem C19_resize_value_partial : forall (A : Type) (dflt value : A) threads threshold cap l size,
  0 < threads -> 2 * Z.of_nat size + threads < 2 ^ 64 -> Z.of_nat (length l) <= cap ->
  (length l <= size)%nat ->
  parallelize_resize_value dflt value threads threshold cap l size = Some (resized l size value).
Proof. exact (fun A => resize_value_grow). Qed.
Print Assumptions C19_resize_value_partial.

(** ... and every shrinking call asks for a span longer than the container (size_t underflow). *)
Theorem C19_resize_value_shrink_fails : forall (A : Type) (dflt value : A) threads threshold cap l size,
  (size < length l)%nat -> Z.of_nat (length l) <= cap -> cap < 2 ^ 63 ->
  parallelize_resize_value dflt value threads threshold cap l size = None.
Proof. exact (fun A => resize_value_shrink_fails). Qed.
Print Assumptions C19_resize_value_shrink_fails.

Theorem C19_resize_value_refuted : exists (cap : Z) (l : list Z) (size : nat),
  Z.of_nat (length l) <= cap /\
  parallelize_resize_value 0 9 1 None cap l size <> Some (resized l size 9).
Proof. exists 3, [1; 2; 3], 2%nat. split; [reflexivity|]. vm_compute. discriminate. Qed.
Print Assumptions C19_resize_value_refuted.

Example C19_nonvacuous :
  parallelize_resize 0 2 None 3 [1; 2; 3] 5 = Some [1; 2; 3; 0; 0] /\
  parallelize_resize 0 2 None 8 [1; 2; 3] 2 = Some [1; 2] /\
  parallelize_resize_value 0 7 2 None 8 [1; 2; 3] 5 = Some [1; 2; 3; 7; 7] /\
  parallelize_resize_value 0 7 2 None 3 [1; 2; 3] 6 = Some [1; 2; 3; 7; 7; 7].
Proof. ands; vm_compute; reflexivity. Qed.
