(** Property theorems C24 for circular_deque. *)
From Coq Require Import List Arith Lia.
From Verif Require Import DequeModel DequeSpec DequeProof DequeProof2.
Import ListNotations.

(** Any legal program over any number of deques (and any element type) runs without touching memory outside the
    rings, without leaking or double-destroying an element, and every deque shows exactly the list it should. *)
Theorem C24_history : forall T n (os : list (sop T)) ls, list_srun T os (repeat [] n) ls ->
  exists ds, srun T os (repeat (empty_deque T) n) = Some ds /\ Forall2 (observes T) ds ls.
Proof. intros T n os ls H. destruct (srun_spec T os _ _ ls (reps_init T n) H) as (ds & E & R). exists ds. split; [exact E|exact (reps_observes T ds ls R)]. Qed.
Print Assumptions C24_history.

(** The iterators returned by emplace and erase point at the right position of the new sequence. *)
Theorem C24_returned_iterators : forall T (os : list (op T)) d, legal_run T os [] -> run T os (empty_deque T) = Some d ->
  let l := list_run T os [] in
  (forall k x, k <= length l -> exists d', emplace T (iter_at T d k) x d = Some (d', iter_at T d' k) /\
     observes T d' (firstn k l ++ [x] ++ skipn k l)) /\
  (forall i j, i <= j <= length l -> exists d', erase T (iter_at T d i) (iter_at T d j) d = Some (d', iter_at T d' i) /\
     observes T d' (firstn i l ++ skipn j l)).
Proof.
  intros T os d HG HR l. destruct (run_spec T os _ _ (rep_init T) HG) as (d0 & E & R). rewrite HR in E. injection E as <-. split.
  - intros k x Hk. destruct (emplace_spec T k x d _ R Hk) as (d' & E & R'). exists d'. split; [exact E|exact (rep_observes T d' _ R')].
  - intros i j Hk. destruct (erase_spec T i j d _ R Hk) as (d' & E & R'). exists d'. split; [exact E|exact (rep_observes T d' _ R')].
Qed.
Print Assumptions C24_returned_iterators.

(** Capacity requests: reserve provides at least the capacity asked for, shrink_to_fit exactly the size. *)
Theorem C24_capacity : forall T (os : list (op T)) d, legal_run T os [] -> run T os (empty_deque T) = Some d ->
  (forall n, exists d', reserve T n d = Some d' /\ n <= capacity T d' /\ observes T d' (list_run T os [])) /\
  (exists d', shrink_to_fit T d = Some d' /\ capacity T d' = length (list_run T os []) /\ observes T d' (list_run T os [])).
Proof.
  intros T os d HG HR. destruct (run_spec T os _ _ (rep_init T) HG) as (d0 & E & R). rewrite HR in E. injection E as <-. split.
  - intros n. destruct (reserve_spec T n d _ R) as (d' & E & R' & C). exists d'. split; [exact E|]. split; [exact C|exact (rep_observes T d' _ R')].
  - destruct (shrink_to_fit_spec T d _ R) as (d' & E & R' & C). exists d'. split; [exact E|]. split; [exact C|exact (rep_observes T d' _ R')].
Qed.
Print Assumptions C24_capacity.

(** push_back of a reference to one of the deque's own elements: fine while there is room ... *)
Theorem C69_push_back_own_element_partial : forall T (os : list (op T)) d i x, legal_run T os [] -> run T os (empty_deque T) = Some d ->
  nth_error (list_run T os []) i = Some x -> length (list_run T os []) + 1 <= capacity T d ->
  exists d', push_back_own T i d = Some d' /\ observes T d' (list_run T os [] ++ [x]).
Proof.
  intros T os d i x HG HR Hx HC. destruct (run_spec T os _ _ (rep_init T) HG) as (d0 & E & R). rewrite HR in E. injection E as <-.
  destruct (push_back_own_spec T i d _ x R Hx HC) as (d' & E & R'). exists d'. split; [exact E|exact (rep_observes T d' _ R')].
Qed.
Print Assumptions C69_push_back_own_element_partial.

(** ... but the element is read from the freed buffer when the push reallocates. *)
Theorem C69_push_back_own_element_refuted : exists (os : list (op nat)) d i x, legal_run nat os [] /\
  run nat os (empty_deque nat) = Some d /\ nth_error (list_run nat os []) i = Some x /\ push_back_own nat i d = None.
Proof.
  exists [PushBack 1; PushBack 2; PushBack 3]. eexists. exists 0, 1. split; [cbn; auto|]. split; [vm_compute; reflexivity|]. split; reflexivity.
Qed.
Print Assumptions C69_push_back_own_element_refuted.

Example C24_nonvacuous :
  let os := [On 0 (PushBack 1); On 0 (PushFront 2); On 0 (Insert 1 [7; 8; 9]); On 0 (InsertN 2 3 5); On 0 (Erase 1 3); On 0 PopFront;
             On 0 PopBack; On 0 (Emplace 2 4); On 0 (Resize 9 3); CopyNew 0; On 1 ShrinkToFit; On 1 (PushFront 1); On 0 (Resize 2 0);
             SwapOp 0 1; MoveTo 1 0; On 0 (Assign [6; 5]); CopyTo 1 0] in
  exists ls, list_srun nat os (repeat [] 1) ls /\ ls = [[6; 5]; [6; 5]].
Proof.
  cbv zeta. eexists. split; [|reflexivity]. repeat (eapply srun_cons; [cbn; try (intros ? [= <-]; cbn; try lia; try discriminate; auto); auto|reflexivity|]). apply srun_nil.
Qed.
