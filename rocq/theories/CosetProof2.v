(** InterpolateCoset evaluates the interpolating polynomials. *)
From Coq Require Import ZArith List Bool Lia Arith Permutation Ring Field Field_theory.
From Verif Require Import Field BitsModel BitsExtra ParallelizeModel ParallelizeSpec ParallelizeProof ParallelizeExtra SemigroupModel SemigroupSpec SemigroupProof SemigroupExtra
  PolySpec PolyProof3 FFTModel FFTSpec FFTProof FFTProof2 FFTProof4 FFTProof5 FFTExtra DomainSpec DomainProof CosetModel CosetProof.
Import ListNotations.
Open Scope nat_scope.

Section Interpolate.
  Variable K : fld.
  Add Field Kinp : (fld_theory K).
  Open Scope fld_scope.
  Variables (adicity : nat) (root : K).
  Hypothesis Had : (adicity < 62)%nat.
  Hypothesis Hroot : primitive_root root (2 ^ adicity).
  Notation gen k := (generator adicity root k).

  Lemma weighted_sum_spec {A} (fs : list A) (D : nat -> K) (E : nat -> A -> K) w : forall n s (P : A -> K) pw,
    weighted_sum (map P fs) pw w (map D (seq s n)) (map (fun i => map (E i) fs) (seq s n)) =
    map (fun a => P a + fsum (map (fun j => D (s + j)%nat * (pw * w ^ j) * E (s + j)%nat a) (seq 0 n))) fs.
  Proof.
    induction n as [|n IH]; intros s P pw.
    - cbn [seq map weighted_sum fsum]. apply map_ext. intros a. ring.
    - cbn [seq map weighted_sum]. rewrite combine_map2, map_map. cbn [fst snd]. rewrite IH. apply map_ext. intros a. cbn [fsum].
      rewrite <- seq_shift, map_map. rewrite !Nat.add_0_r. cbn [fpow].
      rewrite (fsum_map_ext K (fun x => D (s + S x)%nat * (pw * (w * w ^ x)) * E (s + S x)%nat a) (fun j => D (S s + j)%nat * (pw * w * w ^ j) * E (S s + j)%nat a)); [ring|].
      intros j _. replace (s + S j)%nat with (S s + j)%nat by lia. ring.
  Qed.
  Lemma sum_chunks_spec {A} (fs : list A) (F : Z * Z * Z -> A -> K) calls : forall P : A -> K,
    sum_chunks (map P fs) (map (fun c => Some (map (F c) fs)) calls) = Some (map (fun a => P a + fsum (map (fun c => F c a) calls)) fs).
  Proof.
    induction calls as [|c cs IH]; intros P.
    - cbn [map sum_chunks fsum]. f_equal. apply map_ext. intros a. ring.
    - cbn [map sum_chunks]. rewrite combine_map2, map_map. cbn [fst snd]. rewrite IH. f_equal. apply map_ext. intros a. cbn [fsum]. ring.
  Qed.
  Lemma fsum_concat (l : list (list K)) : fsum (concat l) = fsum (map fsum l).
  Proof. induction l as [|a l IH]; [reflexivity|]. cbn [concat map fsum]. rewrite fsum_app, IH. reflexivity. Qed.
  Lemma firstn_skipn_map {B} (f : nat -> B) n s len : (s + len <= n)%nat -> firstn len (skipn s (map f (seq 0 n))) = map f (seq s len).
  Proof.
    intros H. replace n with (s + (len + (n - s - len)))%nat by lia. rewrite !seq_app, !map_app, skipn_app, map_length, seq_length, Nat.sub_diag.
    rewrite skipn_all2 by (rewrite map_length, seq_length; lia). cbn [app skipn]. rewrite firstn_app, map_length, seq_length, Nat.sub_diag, firstn_O, app_nil_r.
    rewrite firstn_all2 by (rewrite map_length, seq_length; lia). reflexivity.
  Qed.
  Lemma tiles_bound2 calls : forall idx pos stop, (0 <= pos)%Z -> tiles idx pos calls stop -> Forall (fun c => (0 <= snd (fst c) /\ 0 < snd c /\ snd (fst c) + snd c <= stop)%Z) calls.
  Proof.
    induction calls as [|[[i s] n] cs IH]; intros idx pos stop Hp HT; [constructor|]. cbn [tiles] in HT. destruct HT as (-> & -> & Hn & HT).
    pose proof (ParallelizeProof.tiles_le _ _ _ _ HT). constructor; [cbn; lia|]. apply (IH (idx + 1)%Z (pos + n)%Z); [lia|exact HT].
  Qed.
  Lemma repeat_map {A} (fs : list A) (z : K) : repeat z (length fs) = map (fun _ => z) fs.
  Proof. induction fs; cbn; congruence. Qed.

  Lemma interpolate_raw {A} threads k (fs : list A) (E : nat -> A -> K) h tau : (0 < threads < 2 ^ 62)%Z -> (k <= adicity)%nat -> h <> 0 ->
    interpolate_coset adicity root threads (length fs) (map (fun i => map (E i) fs) (seq 0 (2 ^ k))) h tau =
    Some (map (fun a => fsum (map (fun i => inv0 K (tau - h * gen k ^ i) * gen k ^ i * E i a) (seq 0 (2 ^ k))) *
                 ((tau ^ (2 ^ k) - h ^ (2 ^ k)) * finv (fnat (2 ^ k) * h ^ (2 ^ k - 1)))) fs).
  Proof.
    intros Ht Hk Hh. unfold interpolate_coset. rewrite map_length, seq_length.
    rewrite checked_log2_pow2 by lia. rewrite root_spec by lia. fold (gen k). rewrite Nat2Z.id, !exp_pow2_spec.
    set (N := Z.of_nat (2 ^ k)). set (calls := chunk_calls N _). pose proof (pow2_small k ltac:(lia)) as Hsm. pose proof (pow2_1 k) as H1.
    assert (Hb : (2 * N + threads < 2 ^ 64)%Z) by (unfold N; lia).
    destruct (container_partition threads N None ltac:(lia) ltac:(unfold N; lia) Hb) as [HT _]. fold calls in HT.
    pose proof (tiles_bound2 calls 0 0 N ltac:(lia) HT) as HB.
    set (D := fun i => inv0 K (tau - h * gen k ^ i)). set (T := fun a i => D i * gen k ^ i * E i a).
    set (F := fun (c : Z * Z * Z) a => fsum (map (T a) (seq (Z.to_nat (snd (fst c))) (Z.to_nat (snd c))))).
    assert (EQ : map (interpolate_chunk (length fs) h (gen k) tau (map (fun i => map (E i) fs) (seq 0 (2 ^ k)))) calls = map (fun c => Some (map (F c) fs)) calls).
    { apply map_ext_in. intros [[i s] n] Hc. rewrite Forall_forall in HB. specialize (HB _ Hc). cbn [fst snd] in HB. destruct HB as (B1 & B2 & B3). unfold interpolate_chunk, F. cbn [fst snd].
      rewrite walk_chunk by (unfold N in B3; lia). rewrite map_map, batch_inv_spec, map_map. rewrite firstn_skipn_map by (unfold N in B3; lia).
      rewrite repeat_map. fold D. rewrite weighted_sum_spec. f_equal. apply map_ext. intros a. rewrite <- (map_seq_shift (T a)).
      rewrite do_pow_fpow by (unfold N in B3; lia).
      rewrite (fsum_map_ext K (fun j => D (Z.to_nat s + j)%nat * (gen k ^ Z.to_nat s * gen k ^ j) * E (Z.to_nat s + j)%nat a) (fun j => T a (Z.to_nat s + j)%nat)); [ring|].
      intros j _. unfold T. rewrite fpow_add. ring. }
    rewrite EQ, repeat_map, sum_chunks_spec. rewrite do_pow_fpow by (unfold N; lia).
    replace (Z.to_nat (N - 1)) with (2 ^ k - 1)%nat by (unfold N; lia).
    assert (Hd : fnat (2 ^ k) * h ^ (2 ^ k - 1) <> 0).
    { apply fmul_neq0; [|apply fpow_neq0; exact Hh]. apply (fnat_pow2_prim K (gen k)). apply primitive_sub. replace (adicity - k + k)%nat with adicity by lia. exact Hroot. }
    rewrite (proj2 (feqb_neq K _ _) Hd). rewrite map_map. f_equal. apply map_ext. intros a. f_equal.
    unfold F. rewrite <- (map_map (fun c => map (T a) (seq (Z.to_nat (snd (fst c))) (Z.to_nat (snd c)))) fsum), <- fsum_concat.
    rewrite (tiles_pointwise _ calls 0 0 N) by (auto; lia). rewrite Z.sub_0_r. unfold N. rewrite Nat2Z.id. change (Z.to_nat 0) with 0%nat. unfold T, D. ring.
  Qed.
  Lemma interpolate_outside threads k (fs : list (list K)) h tau : (0 < threads < 2 ^ 62)%Z -> (k <= adicity)%nat -> h <> 0 ->
    Forall (fun f => (length f <= 2 ^ k)%nat) fs -> ~ In tau (coset_points h (gen k) (2 ^ k)) ->
    interpolate_coset adicity root threads (length fs) (map (fun i => map (fun f => eval f (h * gen k ^ i)) fs) (seq 0 (2 ^ k))) h tau =
    Some (map (fun f => eval f tau) fs).
  Proof.
    intros Ht Hk Hh HF Hout. assert (HG : primitive_root (gen k) (2 ^ k)). { apply primitive_sub. replace (adicity - k + k)%nat with adicity by lia. exact Hroot. }
    pose proof (pow2_1 k) as H1. pose proof (fnat_pow2_prim K _ _ HG) as Hn.
    assert (Hz : tau ^ (2 ^ k) - h ^ (2 ^ k) <> 0) by (intros E; apply Hout, (vanishing_zero K h (gen k) (2 ^ k) tau H1 HG Hh), E).
    rewrite (interpolate_raw threads k fs (fun i f => eval f (h * gen k ^ i)) h tau Ht Hk Hh). f_equal. apply map_ext_in. intros f Hf.
    rewrite Forall_forall in HF. rewrite <- (basis_interpolates K h (gen k) k tau f HG Hh (HF f Hf)).
    set (sc := (tau ^ (2 ^ k) - h ^ (2 ^ k)) * finv (fnat (2 ^ k) * h ^ (2 ^ k - 1))).
    transitivity (sc * fsum (map (fun i => inv0 K (tau - h * gen k ^ i) * gen k ^ i * eval f (h * gen k ^ i)) (seq 0 (2 ^ k)))); [ring|].
    rewrite <- fsum_map_mul. apply fsum_map_ext. intros i Hi. apply in_seq in Hi.
    destruct (basis_outside K h (gen k) (2 ^ k) tau i ltac:(lia) HG Hh Hn Hz) as [N1 ->]. unfold inv0. rewrite (proj2 (feqb_neq K _ _) N1). unfold sc.
    assert (Hp : h ^ (2 ^ k) = h * h ^ (2 ^ k - 1)) by (rewrite <- fpow_S; f_equal; lia). assert (Hq : h ^ (2 ^ k - 1) <> 0) by (apply fpow_neq0; exact Hh).
    set (y := h ^ (2 ^ k - 1)) in *. rewrite Hp. set (hp := h * y) in *. set (tp := tau ^ (2 ^ k)). set (gi := gen k ^ i) in *. set (nn := fnat (2 ^ k)) in *. unfold hp. field. auto.
  Qed.
  Lemma interpolate_inside {A} threads k (fs : list A) (E : nat -> A -> K) h tau : (0 < threads < 2 ^ 62)%Z -> (k <= adicity)%nat -> h <> 0 ->
    In tau (coset_points h (gen k) (2 ^ k)) ->
    interpolate_coset adicity root threads (length fs) (map (fun i => map (E i) fs) (seq 0 (2 ^ k))) h tau = Some (repeat 0 (length fs)).
  Proof.
    intros Ht Hk Hh Hin. assert (HG : primitive_root (gen k) (2 ^ k)). { apply primitive_sub. replace (adicity - k + k)%nat with adicity by lia. exact Hroot. }
    apply (vanishing_zero K h (gen k) (2 ^ k) tau (pow2_1 k) HG Hh) in Hin. rewrite interpolate_raw by auto. rewrite Hin, repeat_map. f_equal. apply map_ext. intros a. ring.
  Qed.
End Interpolate.
