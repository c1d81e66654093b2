(** Property theorems C39, C40, C44: radix-2 domains, transforms and the twiddle cache.
    [root] is the field's two-adic root of unity, of order 2^adicity; FFTSpec.v defines [primitive_root],
    [values_on], [schedules] (each parallel loop runs its iterations in any order), [radix2_domain] (what
    Create(2^k), possibly followed by GetCoset(h), returns), [generator] and [complete_item]. *)
From Coq Require Import ZArith List Bool Arith Lia Permutation.
From Verif Require Import Field Zp PolySpec FFTModel FFTSpec FFTExtra.
Import ListNotations.
Open Scope fld_scope.
Local Ltac ands := cbv zeta; repeat match goal with |- _ /\ _ => split end.

(** Create picks the least power of two that holds the coefficients, and aborts beyond the field's two-adicity;
    GetCoset fails only for the zero offset. *)
Theorem C39_create : forall (K : fld) (adicity : nat) (root : K) (n : nat),
  (adicity < 62)%nat -> primitive_root root (2 ^ adicity) -> (Z.of_nat n <= 2 ^ 63)%Z ->
  match create_domain adicity root n with
  | Some d => exists k, (k <= adicity)%nat /\ d_size d = (2 ^ k)%nat /\ (n <= 2 ^ k)%nat /\ (forall j, (n <= 2 ^ j)%nat -> (k <= j)%nat) /\
                radix2_domain adicity root k 1 d /\ primitive_root (generator adicity root k) (2 ^ k) /\
                (forall h, match get_coset d h with Some d' => h <> 0 /\ radix2_domain adicity root k h d' | None => h = 0 end)
  | None => (2 ^ adicity < n)%nat
  end.
Proof. exact create_spec. Qed.
Print Assumptions C39_create.

Theorem C39_elements : forall (K : fld) (adicity : nat) (root : K) (k : nat) (h : K) (d : domain K) (threads : Z),
  (adicity < 62)%nat -> primitive_root root (2 ^ adicity) -> (k <= adicity)%nat -> radix2_domain adicity root k h d -> (0 < threads < 2 ^ 62)%Z ->
  get_elements threads d = Some (map (fun i => h * generator adicity root k ^ i) (seq 0 (2 ^ k))) /\
  forall i : nat, (i < 2 ^ k)%nat -> get_element d (Z.of_nat i) = h * generator adicity root k ^ i.
Proof. exact points_spec. Qed.
Print Assumptions C39_elements.

(** FFT returns the values on the points of the domain (the zero polynomial has the empty vector of evaluations), for
    every number of coefficients up to the size; more coefficients abort. *)
Theorem C39_fft : forall (K : fld) (adicity : nat) (root : K) (k : nat) (h : K) (d : domain K) (small : bool) (threads : Z) (sched : scheduler)
    (it : item K) (poly : list K),
  (adicity < 62)%nat -> primitive_root root (2 ^ adicity) -> (k <= adicity)%nat -> radix2_domain adicity root k h d ->
  (0 < threads < 2 ^ 62)%Z -> schedules sched -> complete_item small false k (generator adicity root k) it ->
  ((length poly <= 2 ^ k)%nat -> poly <> [] -> fft threads sched d it poly = Some (values_on poly h (generator adicity root k) (2 ^ k))) /\
  fft threads sched d it [] = Some [] /\
  ((2 ^ k < length poly)%nat -> (Z.of_nat (length poly) < 2 ^ 62)%Z -> fft threads sched d it poly = None).
Proof. exact fft_correct. Qed.
Print Assumptions C39_fft.

(** The tables built for a domain are the complete ones that [C39_fft] needs. *)
Theorem C39_tables : forall (K : fld) (adicity : nat) (root : K) (k : nat) (h : K) (d : domain K) (small : bool) (threads : Z) (sched : scheduler) (packed_only : bool),
  (adicity < 62)%nat -> primitive_root root (2 ^ adicity) -> (k <= adicity)%nat -> radix2_domain adicity root k h d -> (0 < threads < 2 ^ 62)%Z -> schedules sched ->
  exists it, build_item small threads sched d packed_only = Some it /\ complete_item small packed_only k (generator adicity root k) it.
Proof. exact fresh_item. Qed.
Print Assumptions C39_tables.

Notation g17 n := (mkz 17 (prime_check_sound 17 eq_refl) n : F17).
Lemma root17 : primitive_root (g17 3) (2 ^ 4).
Proof.
  split; [apply zp_eq; vm_compute; reflexivity|]. intros i Hi. destruct i as [|i]; [lia|].
  do 15 (destruct i as [|i]; [intros H; apply (f_equal (zval 17)) in H; vm_compute in H; discriminate|]). cbn in Hi. lia.
Qed.
(** A degree-2 polynomial on a coset of size 8 of GF(17), with the degree-aware shortcut not taken and taken, the loops run
    backwards. *)
Example C39_nonvacuous :
  let run := option_map (map (zval 17)) in
  let backwards : scheduler := fun A _ l => rev l in
  let go n := match create_domain 4 (g17 3) 8 with
              | Some d0 => match get_coset d0 (g17 3) with
                           | Some d => match build_item true 4 backwards d false with
                                       | Some it => run (fft 4 backwards d it (map (fun i => g17 i) n))
                                       | None => None end
                           | None => None end
              | None => None end in
  primitive_root (g17 3) (2 ^ 4) /\
  go [1; 2; 3]%Z = run (Some (values_on [g17 1; g17 2; g17 3] (g17 3) (g17 9) 8)) /\
  go [1; 2]%Z = run (Some (values_on [g17 1; g17 2] (g17 3) (g17 9) 8)) /\
  go [1; 2; 3; 4; 5; 6; 7; 8; 9]%Z = None.
Proof. ands; [exact root17|vm_compute; reflexivity|vm_compute; reflexivity|vm_compute; reflexivity]. Qed.

(** The inverse transform interpolates: the canonical polynomial with at most 2^k coefficients that takes the given values. *)
Theorem C40_ifft : forall (K : fld) (adicity : nat) (root : K) (k : nat) (h : K) (d : domain K) (small : bool) (threads : Z) (sched : scheduler)
    (it : item K) (e : list K),
  (adicity < 62)%nat -> primitive_root root (2 ^ adicity) -> (k <= adicity)%nat -> radix2_domain adicity root k h d ->
  (0 < threads < 2 ^ 62)%Z -> schedules sched -> complete_item small false k (generator adicity root k) it -> length e = (2 ^ k)%nat ->
  exists f, ifft threads sched d it e = Some f /\ canonical f /\ (length f <= 2 ^ k)%nat /\ values_on f h (generator adicity root k) (2 ^ k) = e.
Proof. exact ifft_correct. Qed.
Print Assumptions C40_ifft.

(** IFFT(FFT(f)) = f, and FFT(IFFT(e)) = e; an all-zero e comes back as the empty vector, which denotes zero. *)
Theorem C40_round_trips : forall (K : fld) (adicity : nat) (root : K) (k : nat) (h : K) (d : domain K) (small : bool) (threads threads' : Z)
    (sched sched' : scheduler) (it : item K) (f e : list K),
  (adicity < 62)%nat -> primitive_root root (2 ^ adicity) -> (k <= adicity)%nat -> radix2_domain adicity root k h d ->
  (0 < threads < 2 ^ 62)%Z -> (0 < threads' < 2 ^ 62)%Z -> schedules sched -> schedules sched' -> complete_item small false k (generator adicity root k) it ->
  (canonical f -> (length f <= 2 ^ k)%nat -> exists v, fft threads sched d it f = Some v /\ ifft threads' sched' d it v = Some f) /\
  (length e = (2 ^ k)%nat -> exists f', ifft threads sched d it e = Some f' /\
     ((exists x, In x e /\ x <> 0) -> fft threads' sched' d it f' = Some e) /\
     ((forall x, In x e -> x = 0) -> f' = [] /\ fft threads' sched' d it f' = Some [])).
Proof. exact fft_ifft. Qed.
Print Assumptions C40_round_trips.
Example C40_nonvacuous :
  let run := option_map (map (zval 17)) in
  let backwards : scheduler := fun A _ l => rev l in
  let go n := match create_domain 4 (g17 3) 4 with
              | Some d0 => match get_coset d0 (g17 3) with
                           | Some d => match build_item true 4 backwards d false with
                                       | Some it => match ifft 4 backwards d it (map (fun i => g17 i) n) with
                                                    | Some f => (run (Some f), run (fft 4 backwards d it f))
                                                    | None => (None, None) end
                                       | None => (None, None) end
                           | None => (None, None) end
              | None => (None, None) end in
  snd (go [1; 2; 3; 5]%Z) = Some [1; 2; 3; 5]%Z /\ go [7; 7; 7; 7]%Z = (Some [7]%Z, Some [7; 7; 7; 7]%Z) /\ go [0; 0; 0; 0]%Z = (Some [], Some []).
Proof. ands; vm_compute; reflexivity. Qed.

(** Missing from the full property: a full request after a packed-only one for the same domain (see the refutation).
    Every packed-only request, and every full request not preceded by a packed-only one of the same size, is answered with
    complete tables, in every history. *)
Theorem C44_twiddle_cache_partial : forall (K : fld) (small : bool) (adicity : nat) (root : K) (threads : Z) (sched : scheduler) (junk : bool)
    (reqs : list (nat * K * domain K * bool)),
  (adicity < 62)%nat -> primitive_root root (2 ^ adicity) -> (0 < threads < 2 ^ 62)%Z -> schedules sched ->
  Forall (fun r => (fst (fst (fst r)) <= adicity)%nat /\ radix2_domain adicity root (fst (fst (fst r))) (snd (fst (fst r))) (snd (fst r))) reqs ->
  exists its, answers small threads sched junk [] (map (fun r => (snd (fst r), snd r)) reqs) = Some its /\ length its = length reqs /\
  forall i k h d packed_only it, nth_error reqs i = Some (k, h, d, packed_only) -> nth_error its i = Some it ->
    (packed_only = true \/ forall j h' d', (j < i)%nat -> nth_error reqs j <> Some (k, h', d', true)) ->
    complete_item small packed_only k (generator adicity root k) it.
Proof. exact cache_histories. Qed.
Print Assumptions C44_twiddle_cache_partial.

(** After a packed-only request (CosetLDEBatch makes one) the full request for the same domain gets the packed-only item
    back, and an FFT with it reads out of bounds: for every domain of at least four elements. *)
Theorem C44_twiddle_cache_refuted : forall (K : fld) (adicity : nat) (root : K) (k : nat) (h : K) (d : domain K) (small : bool) (threads : Z) (sched : scheduler) (junk : bool),
  (adicity < 62)%nat -> primitive_root root (2 ^ adicity) -> (2 <= k <= adicity)%nat -> radix2_domain adicity root k h d ->
  (0 < threads < 2 ^ 62)%Z -> schedules sched ->
  exists it, answers small threads sched junk [] [(d, true); (d, false)] = Some [it; it] /\
    ~ complete_item small false k (generator adicity root k) it /\
    forall (poly : list K), length poly = (2 ^ k)%nat -> fft threads sched d it poly = None.
Proof. exact packed_then_full. Qed.
Print Assumptions C44_twiddle_cache_refuted.
Example C44_nonvacuous :
  let shape reqs := match create_domain 4 (g17 3) 8 with
                    | Some d => option_map (map (fun it => map (@length _) (it_roots it)))
                                           (answers true 4 (fun A _ l => l) true [] (map (fun b => (d, b)) reqs))
                    | None => None end in
  shape [false; true; false] = Some [[1; 2; 4]; [1; 2; 4]; [1; 2; 4]]%nat /\ shape [true; false] = Some [[0; 0; 4]; [0; 0; 4]]%nat.
Proof. ands; vm_compute; reflexivity. Qed.
