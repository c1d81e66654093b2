(** Property theorems C43, C81, C82, C83: mixed-radix domains, ComputeAdicity and ComputeTrace. FFTSpec.v and MixedSpec.v hold the vocabulary. *)
From Coq Require Import ZArith List Bool Arith Lia.
From Verif Require Import Field Zp PolySpec FFTModel FFTSpec FFTProps MixedModel MixedSpec MixedProof.
Import ListNotations.
Open Scope fld_scope.
Local Ltac ands := cbv zeta; repeat match goal with |- _ /\ _ => split end.

(** The full statement, that both transforms are right for every size 2^a q^b, fails for b > 0 (below). What holds: for the sizes
    2^a, for every odd [q], the serial and the parallel variant are right for every number of threads. *)
Theorem C43_power_of_two_partial : forall (K : fld) (threads : Z) (openmp : bool) (sched : scheduler) (q : nat) (d : domain K) (k : nat) (g h : K),
  (0 < threads < 2 ^ 62)%Z -> (k < 62)%nat -> schedules sched -> Nat.Odd q -> (1 < q)%nat ->
  primitive_root g (2 ^ k) -> h <> 0 -> domain_on (2 ^ k) k g h d ->
  (forall l : list K, (length l <= 2 ^ k)%nat -> mixed_do_fft sched threads openmp q d l = Some (values_on l h g (2 ^ k))) /\
  (forall e : list K, length e = (2 ^ k)%nat ->
     exists f : list K, mixed_do_ifft sched threads openmp q d e = Some f /\ canonical f /\ (length f <= 2 ^ k)%nat /\ values_on f h g (2 ^ k) = e).
Proof. intros. split; intros; [apply mixed_fft_spec|apply mixed_ifft_spec]; auto. Qed.
Print Assumptions C43_power_of_two_partial.

(** On the subgroup {1, 2, 4} of GF(7), 1 + x + x^2 is (3, 0, 0); the transform answers (3, 2, 2). *)
Notation g7 n := (mkz 7 (prime_check_sound 7 eq_refl) n : F7).
Definition three : domain F7 :=
  mk_domain 3 0 (fnat 3) (finv (fnat 3)) (g7 2) (finv (g7 2)) 1 1 1.
Theorem C43_refuted : exists (d : domain F7) (l r : list F7),
  domain_on 3 0 (g7 2) 1 d /\ primitive_root (g7 2) 3 /\ length l = 3%nat /\
  mixed_do_fft (fun _ _ x => x) 1 false 3 d l = Some r /\ map (zval 7) r = [3; 2; 2]%Z /\ map (zval 7) (values_on l 1 (g7 2) 3) = [3; 0; 0]%Z.
Proof.
  exists three, [g7 1; g7 1; g7 1], [g7 3; g7 2; g7 2]. split; [|split; [|split; [|split; [|split]]]].
  - constructor; try reflexivity.
  - split; [apply zp_eq; vm_compute; reflexivity|]. intros i Hi. assert (E : i = 1%nat \/ i = 2%nat) by lia.
    destruct E as [-> | ->]; intros H; apply (f_equal (zval 7)) in H; vm_compute in H; discriminate.
  - reflexivity.
  - match goal with |- ?x = _ => assert (E : option_map (map (zval 7)) x = Some [3; 2; 2]%Z) by (vm_compute; reflexivity); destruct x as [r|]; [|discriminate E] end.
    cbn [option_map] in E. injection E as E. f_equal. destruct r as [|r0 [|r1 [|r2 [|]]]]; try discriminate. cbn [map] in E. injection E as E0 E1 E2.
    repeat f_equal; apply zp_eq; assumption.
  - reflexivity.
  - vm_compute. reflexivity.
Qed.
Print Assumptions C43_refuted.

(** Size 8 of GF(17) on one thread and split over 2 threads, with the loops run backwards. *)
Example C43_nonvacuous :
  let backwards : scheduler := fun A _ l => rev l in
  let l := map (fun i => g17 i) [1; 2; 3; 4; 5; 6; 7; 8]%Z in
  let go openmp := match create_domain 4 (g17 3) 8 with
                   | Some d0 => match get_coset d0 (g17 3) with
                                | Some d => option_map (map (zval 17)) (mixed_do_fft backwards 3 openmp 3 d l)
                                | None => None end
                   | None => None end in
  go true = Some (map (zval 17) (values_on l (g17 3) (g17 9) 8)) /\ go false = go true.
Proof. ands; vm_compute; reflexivity. Qed.

(** ComputeAdicity(k, n) is the multiplicity of k in n, and it is the only exponent with that property. *)
Theorem C81_adicity : forall k n : Z, (2 <= k)%Z -> (0 < n)%Z ->
  exists t, (0 <= compute_adicity k n)%Z /\ n = (k ^ compute_adicity k n * t)%Z /\ (t mod k <> 0)%Z /\
  forall s t', (0 <= s)%Z -> n = (k ^ s * t')%Z -> (t' mod k <> 0)%Z -> s = compute_adicity k n.
Proof. exact adicity_full. Qed.
Print Assumptions C81_adicity.
Example C81_nonvacuous : compute_adicity 3 (81 * 20) = 4%Z /\ compute_adicity 2 1 = 0%Z /\ compute_adicity 6 12 = 1%Z.
Proof. ands; reflexivity. Qed.

(** The full statement: ComputeTrace(k, n) is the cofactor t with n = k^a t and k not dividing t. It holds exactly when n is not a
    power of k, for which the answer is 0 instead of 1. *)
Theorem C82_trace_partial : forall k n : Z, (2 <= k)%Z -> (0 < n)%Z ->
  exists a t, (0 <= a)%Z /\ n = (k ^ a * t)%Z /\ (t mod k <> 0)%Z /\ (t <> 1%Z -> compute_trace k n = t) /\ (t = 1%Z -> compute_trace k n = 0%Z).
Proof. exact trace_full. Qed.
Print Assumptions C82_trace_partial.
Theorem C82_trace_refuted : exists k n : Z, (2 <= k)%Z /\ (0 < n)%Z /\ forall a, (0 <= a)%Z -> n <> (k ^ a * compute_trace k n)%Z.
Proof. exists 2%Z, 8%Z. split; [lia|]. split; [lia|]. intros a Ha. change (compute_trace 2 8) with 0%Z. lia. Qed.
Print Assumptions C82_trace_refuted.
Example C82_nonvacuous : compute_trace 2 96 = 3%Z /\ compute_trace 3 1 = 0%Z.
Proof. split; reflexivity. Qed.

(** The full statement: the default MaxDegree of a mixed-radix domain is base^adicity 2^two_adicity - 1, the largest degree that a subgroup
    of that size holds. The loop's own counter shadows the accumulator, so the answer never depends on the small subgroup. *)
Theorem C83_max_degree_partial : forall base small_adicity two_adicity : Z, (2 <= base)%Z -> (0 <= small_adicity)%Z ->
  max_degree_mixed base small_adicity two_adicity = Some (2 ^ two_adicity - 1)%Z.
Proof. exact max_degree_wrong. Qed.
Print Assumptions C83_max_degree_partial.
Theorem C83_max_degree_refuted : exists base small_adicity two_adicity : Z, (2 <= base)%Z /\ (0 <= small_adicity)%Z /\ (0 <= two_adicity)%Z /\
  max_degree_mixed base small_adicity two_adicity <> Some (base ^ small_adicity * 2 ^ two_adicity - 1)%Z.
Proof. exists 3%Z, 2%Z, 28%Z. split; [lia|]. split; [lia|]. split; [lia|]. rewrite max_degree_wrong by lia. discriminate. Qed.
Print Assumptions C83_max_degree_refuted.
