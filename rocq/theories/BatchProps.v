(** Property theorems C118-C122: transforms and low-degree extensions of the columns of a matrix.
    A matrix is the list of its rows. BatchSpec.v defines [is_matrix], [entry], [column], [matrix] (from its entries),
    [column_polys] (the interpolants of the columns) and [bit_reversed]; FFTSpec.v the rest, as for C39. The tables [it]
    are those of the process-wide cache (small fields, where these functions exist); [row_bf] and [row_scale] are the
    row operations of FFTModel.v. *)
From Coq Require Import ZArith List Bool Arith Lia Permutation.
From Verif Require Import Field Zp PolySpec FFTModel FFTSpec FFTProps BatchSpec BatchProof2 BatchExtra.
Import ListNotations.
Open Scope fld_scope.

(** FFTBatch replaces every column, read as coefficients, by its values on the subgroup; any other number of rows aborts. *)
Theorem C118_forward : forall (K : fld) (adicity : nat) (root : K) (k : nat) (h : K) (d : domain K) (sched : scheduler) (it : item K) (po : bool) (cols : nat) (mat : list (list K)),
  (adicity < 62)%nat -> primitive_root root (2 ^ adicity) -> (0 < k <= adicity)%nat -> radix2_domain adicity root k h d -> schedules sched ->
  complete_item true po k (generator adicity root k) it -> is_matrix (2 ^ k) cols mat ->
  fft_batch row_bf sched d it mat = Some (matrix (2 ^ k) cols (fun i c => eval (column mat c) (generator adicity root k ^ i))).
Proof. exact batch_forward. Qed.
Print Assumptions C118_forward.

(** IFFTBatch interpolates every column, and undoes FFTBatch. *)
Theorem C118_inverse : forall (K : fld) (adicity : nat) (root : K) (k : nat) (h : K) (d : domain K) (sched : scheduler) (it : item K) (po : bool) (cols : nat) (mat : list (list K)),
  (adicity < 62)%nat -> primitive_root root (2 ^ adicity) -> (0 < k <= adicity)%nat -> radix2_domain adicity root k h d -> schedules sched ->
  complete_item true po k (generator adicity root k) it -> is_matrix (2 ^ k) cols mat ->
  exists out, ifft_batch row_bf row_scale sched d it mat = Some out /\ is_matrix (2 ^ k) cols out /\
    (forall i c, (i < 2 ^ k)%nat -> (c < cols)%nat -> eval (column out c) (generator adicity root k ^ i) = entry mat i c) /\
    fft_batch row_bf sched d it out = Some mat.
Proof. exact batch_inverse. Qed.
Print Assumptions C118_inverse.

Theorem C118_wrong_size : forall (K : fld) (adicity : nat) (root : K) (k : nat) (h : K) (d : domain K) (sched : scheduler) (it : item K) (mat : list (list K)),
  (adicity < 62)%nat -> primitive_root root (2 ^ adicity) -> (0 < k <= adicity)%nat -> radix2_domain adicity root k h d -> length mat <> (2 ^ k)%nat ->
  fft_batch row_bf sched d it mat = None /\ ifft_batch row_bf row_scale sched d it mat = None.
Proof. exact batch_wrong. Qed.
Print Assumptions C118_wrong_size.

Definition m17 (l : list (list Z)) : list (list F17) := map (map (fun i => g17 i)) l.
Definition v17 (l : list (list F17)) : list (list Z) := map (map (zval 17)) l.
Definition backwards : scheduler := fun A _ l => rev l.
Lemma backwards_ok : schedules backwards. Proof. intros A t l. apply Permutation_rev. Qed.
Definition on17 (n : nat) (f : domain F17 -> item F17 -> option (list (list F17))) : option (list (list Z)) :=
  match create_domain 4 (g17 3) n with
  | Some d => match build_item true 4 backwards d false with Some it => option_map v17 (f d it) | None => None end
  | None => None
  end.
Example C118_nonvacuous :
  primitive_root (g17 3) (2 ^ 4) /\ schedules backwards /\
  on17 8 (fun d it => fft_batch row_bf backwards d it (m17 [[1; 1]; [2; 0]; [3; 0]; [4; 0]; [5; 0]; [6; 0]; [7; 0]; [8; 0]]%Z)) =
    Some (v17 (matrix 8 2 (fun i c => eval (nth c [map (fun i => g17 i) [1; 2; 3; 4; 5; 6; 7; 8]%Z; [g17 1]] []) (generator 4 (g17 3) 3 ^ i)))) /\
  on17 4 (fun d it => ifft_batch row_bf row_scale backwards d it (matrix 4 2 (fun i c => eval (nth c [map (fun i => g17 i) [1; 2; 3; 4]%Z; [g17 5]] []) (generator 4 (g17 3) 2 ^ i)))) =
    Some [[1; 5]; [2; 0]; [3; 0]; [4; 0]]%Z /\
  on17 4 (fun d it => fft_batch row_bf backwards d it (m17 [[1]; [2]]%Z)) = None.
Proof. split; [exact root17|]. split; [exact backwards_ok|]. split; [|split]; vm_compute; reflexivity. Qed.

(** CosetLDEBatch evaluates the interpolant of every column on shift H', where H' is the subgroup 2^a times larger; the rows come
    out in natural order, or bit-reversed when the caller asks so. The output matrix must have the right number of rows
    unless a = 0. *)
Theorem C119_extension : forall (K : fld) (adicity : nat) (root : K) (k a : nat) (h : K) (d : domain K) (threads : Z) (sched : scheduler) (it : item K) (po : bool)
    (cols : nat) (mat : list (list K)) (shift : K) (P : nat -> list K) (out_rows : nat) (reverse_at_last : bool),
  (adicity < 62)%nat -> primitive_root root (2 ^ adicity) -> (0 < k)%nat -> (k + a <= adicity)%nat ->
  radix2_domain adicity root k h d -> (0 < threads < 2 ^ 62)%Z -> schedules sched -> complete_item true po k (generator adicity root k) it ->
  is_matrix (2 ^ k) cols mat -> column_polys (2 ^ k) cols (generator adicity root k) mat P -> (a = 0%nat \/ out_rows = (2 ^ (k + a))%nat) ->
  coset_lde_batch row_bf row_scale (repeat (0 : K) cols) true threads sched adicity root d it mat a shift out_rows reverse_at_last =
  Some (matrix (2 ^ (k + a)) cols
          (fun i c => eval (P c) (shift * generator adicity root (k + a) ^ (if reverse_at_last then i else bit_reversed (k + a) i)))).
Proof. exact lde_correct. Qed.
Print Assumptions C119_extension.

(** Every matrix of that size has column interpolants. *)
Theorem C119_interpolants : forall (K : fld) (adicity : nat) (root : K) (k cols : nat) (mat : list (list K)),
  (adicity < 62)%nat -> primitive_root root (2 ^ adicity) -> (0 < k <= adicity)%nat -> is_matrix (2 ^ k) cols mat ->
  exists P, column_polys (2 ^ k) cols (generator adicity root k) mat P.
Proof. exact column_polys_exist. Qed.
Print Assumptions C119_interpolants.

Theorem C119_wrong_size : forall (K : fld) (adicity : nat) (root : K) (k a : nat) (h : K) (d : domain K) (threads : Z) (sched : scheduler) (it : item K)
    (cols : nat) (mat : list (list K)) (shift : K) (out_rows : nat) (reverse_at_last : bool),
  (adicity < 62)%nat -> primitive_root root (2 ^ adicity) -> (0 < k)%nat -> (k <= adicity)%nat -> radix2_domain adicity root k h d -> length mat <> (2 ^ k)%nat ->
  coset_lde_batch row_bf row_scale (repeat (0 : K) cols) true threads sched adicity root d it mat a shift out_rows reverse_at_last = None.
Proof. exact lde_wrong. Qed.
Print Assumptions C119_wrong_size.

Definition lde17 (over : bool) (rows a : nat) (rev : bool) (mat : list (list F17)) : option (list (list Z)) :=
  on17 rows (fun d it => (if over then coset_lde_batch_const else coset_lde_batch) row_bf row_scale (repeat (0 : F17) 2) true 4%Z backwards 4%nat (g17 3) d it mat a (g17 3) (rows * 2 ^ a)%nat rev).
Definition poly17 (c : nat) : list F17 := nth c [map (fun i => g17 i) [1; 2; 3; 4]%Z; [g17 5; g17 1]] [].
Definition values17 : list (list F17) := matrix 4 2 (fun i c => eval (poly17 c) (generator 4 (g17 3) 2 ^ i)).
Example C119_nonvacuous :
  (forall c, (c < 2)%nat -> (length (poly17 c) <= 4)%nat) /\
  lde17 false 4 1 true values17 = Some (v17 (matrix 8 2 (fun i c => eval (poly17 c) (g17 3 * generator 4 (g17 3) 3 ^ i)))) /\
  lde17 false 4 1 false values17 = Some (v17 (matrix 8 2 (fun i c => eval (poly17 c) (g17 3 * generator 4 (g17 3) 3 ^ (nth i [0; 4; 2; 6; 1; 5; 3; 7] 0)%nat)))) /\
  lde17 false 4 0 true values17 = Some (v17 (matrix 4 2 (fun i c => eval (poly17 c) (g17 3 * generator 4 (g17 3) 2 ^ i)))).
Proof. split; [intros [|[|c]] Hc; cbn; lia|]. split; [|split]; vm_compute; reflexivity. Qed.

(** The overload for a constant matrix takes the same row-order flag, but ignores it: asking for bit-reversed rows returns them in
    natural order. *)
Theorem C120_const_overload_refuted : exists (K : fld) (adicity : nat) (root : K) (d : domain K) (it : item K) (mat : list (list K)) (shift : K) (sched : scheduler),
  primitive_root root (2 ^ adicity) /\ radix2_domain adicity root 2 1 d /\ schedules sched /\ build_item true 4 sched d false = Some it /\ is_matrix 4 2 mat /\
  exists r1 r2, coset_lde_batch row_bf row_scale (repeat (0 : K) 2) true 4 sched adicity root d it mat 1 shift 8 false = Some r1 /\
    coset_lde_batch_const row_bf row_scale (repeat (0 : K) 2) true 4 sched adicity root d it mat 1 shift 8 false = Some r2 /\ r1 <> r2.
Proof.
  destruct (create_domain 4 (g17 3) 4) as [d|] eqn:Ed.
  2:{ exfalso. assert (H : match create_domain 4 (g17 3) 4 with Some _ => true | None => false end = true) by (vm_compute; reflexivity). rewrite Ed in H. discriminate. }
  destruct (build_item true 4 backwards d false) as [it|] eqn:Ei.
  2:{ exfalso. assert (H : match create_domain 4 (g17 3) 4 with Some d => match build_item true 4 backwards d false with Some _ => true | None => false end | None => false end = true) by (vm_compute; reflexivity).
      rewrite Ed, Ei in H. discriminate. }
  exists F17, 4%nat, (g17 3), d, it, values17, (g17 3), backwards.
  split; [exact root17|]. split; [exists d; split; [exact Ed|left; auto]|]. split; [exact backwards_ok|]. split; [exact Ei|].
  split; [apply matrix_rows|].
  assert (H1 : exists z1 z2, lde17 false 4 1 false values17 = Some z1 /\ lde17 true 4 1 false values17 = Some z2 /\ z1 <> z2).
  { do 2 eexists. split; [vm_compute; reflexivity|]. split; [vm_compute; reflexivity|]. discriminate. }
  destruct H1 as (z1 & z2 & E1 & E2 & Hne). unfold lde17, on17 in E1, E2. rewrite Ed, Ei in E1, E2. change (4 * 2 ^ 1)%nat with 8%nat in E1, E2. cbv iota in E1, E2.
  destruct (coset_lde_batch row_bf row_scale (repeat 0 2) true 4 backwards 4 (g17 3) d it values17 1 (g17 3) 8 false) as [r1|]; [|discriminate].
  destruct (coset_lde_batch_const row_bf row_scale (repeat 0 2) true 4 backwards 4 (g17 3) d it values17 1 (g17 3) 8 false) as [r2|]; [|discriminate].
  exists r1, r2. do 2 (split; [reflexivity|]). intros ->. cbn [option_map] in E1, E2. congruence.
Qed.
Print Assumptions C120_const_overload_refuted.
(** What it returns, whatever the flag: the rows in natural order, which is what was asked for when the flag is set. *)
Theorem C120_const_overload_partial : forall (K : fld) (adicity : nat) (root : K) (k a : nat) (h : K) (d : domain K) (threads : Z) (sched : scheduler) (it : item K) (po : bool)
    (cols : nat) (mat : list (list K)) (shift : K) (P : nat -> list K) (out_rows : nat) (flag : bool),
  (adicity < 62)%nat -> primitive_root root (2 ^ adicity) -> (0 < k)%nat -> (k + a <= adicity)%nat ->
  radix2_domain adicity root k h d -> (0 < threads < 2 ^ 62)%Z -> schedules sched -> complete_item true po k (generator adicity root k) it ->
  is_matrix (2 ^ k) cols mat -> column_polys (2 ^ k) cols (generator adicity root k) mat P -> (a = 0%nat \/ out_rows = (2 ^ (k + a))%nat) ->
  coset_lde_batch_const row_bf row_scale (repeat (0 : K) cols) true threads sched adicity root d it mat a shift out_rows flag =
  Some (matrix (2 ^ (k + a)) cols (fun i c => eval (P c) (shift * generator adicity root (k + a) ^ i))).
Proof. exact lde_const. Qed.
Print Assumptions C120_const_overload_partial.

(** A coset h H made by GetCoset evaluates polynomials at its own points with FFT (C39), but FFTBatch on the same domain evaluates the
    columns on the subgroup H. *)
Theorem C121_batch_on_coset_refuted : exists (K : fld) (adicity : nat) (root h : K) (d : domain K) (it : item K) (poly : list K) (sched : scheduler),
  primitive_root root (2 ^ adicity) /\ radix2_domain adicity root 2 h d /\ schedules sched /\ build_item true 4 sched d false = Some it /\ length poly = 4%nat /\
  exists v m, fft 4 sched d it poly = Some v /\ fft_batch row_bf sched d it (map (fun c => [c]) poly) = Some m /\ m <> map (fun y => [y]) v.
Proof.
  set (poly := map (fun i => g17 i) [0; 1; 0; 0]%Z).
  destruct (create_domain 4 (g17 3) 4) as [d0|] eqn:Ed.
  2:{ exfalso. assert (H : match create_domain 4 (g17 3) 4 with Some _ => true | None => false end = true) by (vm_compute; reflexivity). rewrite Ed in H. discriminate. }
  destruct (get_coset d0 (g17 3)) as [d|] eqn:Ec.
  2:{ exfalso. assert (H : match create_domain 4 (g17 3) 4 with Some d => match get_coset d (g17 3) with Some _ => true | None => false end | None => false end = true) by (vm_compute; reflexivity).
      rewrite Ed, Ec in H. discriminate. }
  assert (H : match create_domain 4 (g17 3) 4 with Some d0 => match get_coset d0 (g17 3) with Some d => match build_item true 4 backwards d false with Some it =>
     (option_map (map (zval 17)) (fft 4 backwards d it poly), option_map v17 (fft_batch row_bf backwards d it (map (fun c => [c]) poly)))
     | None => (None, None) end | None => (None, None) end | None => (None, None) end = (Some [3; 5; 14; 12]%Z, Some [[1]; [13]; [16]; [4]]%Z)) by (vm_compute; reflexivity).
  rewrite Ed, Ec in H. destruct (build_item true 4 backwards d false) as [it|] eqn:Ei; [|discriminate].
  destruct (fft 4 backwards d it poly) as [v|] eqn:Ef; [|discriminate]. destruct (fft_batch row_bf backwards d it (map (fun c => [c]) poly)) as [m|] eqn:Em; [|discriminate].
  exists F17, 4%nat, (g17 3), (g17 3), d, it, poly, backwards.
  split; [exact root17|]. split; [exists d0; split; [exact Ed|right; exact Ec]|]. split; [exact backwards_ok|]. split; [exact Ei|]. split; [reflexivity|].
  exists v, m. do 2 (split; [assumption|]). intros ->. cbn [option_map] in H. injection H as H1 H2. unfold v17 in H2. rewrite map_map in H2. cbn [map] in H2.
  rewrite <- (map_map (zval 17) (fun x => [x])), H1 in H2. discriminate.
Qed.
Print Assumptions C121_batch_on_coset_refuted.
(** On a domain without offset the two agree, column by column. *)
Theorem C121_batch_on_subgroup_partial : forall (K : fld) (adicity : nat) (root : K) (k : nat) (d : domain K) (sched : scheduler) (threads : Z) (it : item K) (cols : nat) (mat : list (list K)),
  (adicity < 62)%nat -> primitive_root root (2 ^ adicity) -> (0 < k <= adicity)%nat -> radix2_domain adicity root k 1 d -> schedules sched -> (0 < threads < 2 ^ 62)%Z ->
  complete_item true false k (generator adicity root k) it -> is_matrix (2 ^ k) cols mat ->
  exists out, fft_batch row_bf sched d it mat = Some out /\ forall c, (c < cols)%nat -> fft threads sched d it (column mat c) = Some (column out c).
Proof. exact batch_columns. Qed.
Print Assumptions C121_batch_on_subgroup_partial.

(** A matrix with one row is a valid input of size 2^0, but every batch transform of it aborts. *)
Theorem C122_one_row_refuted : forall (K : fld) (adicity : nat) (root : K) (threads : Z) (sched : scheduler) (d : domain K) (it : item K) (po : bool) (row : list K) (h : K)
    (a : nat) (shift : K) (out_rows : nat) (reverse_at_last : bool) (cols : nat),
  (adicity < 62)%nat -> primitive_root root (2 ^ adicity) -> radix2_domain adicity root 0 h d -> build_item true threads sched d po = Some it ->
  fft_batch row_bf sched d it [row] = None /\ ifft_batch row_bf row_scale sched d it [row] = None /\
  coset_lde_batch row_bf row_scale (repeat (0 : K) cols) true threads sched adicity root d it [row] a shift out_rows reverse_at_last = None.
Proof. exact one_row. Qed.
Print Assumptions C122_one_row_refuted.
Example C122_nonvacuous :
  on17 1 (fun d it => Some [[d_gen d]]) = Some [[1]]%Z /\ on17 1 (fun d it => fft_batch row_bf backwards d it (m17 [[5]]%Z)) = None.
Proof. split; vm_compute; reflexivity. Qed.
