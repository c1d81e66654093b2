(** The powers of the key, and the assembly of the theorems about quadratic arithmetic programs. *)
From Coq Require Import ZArith Lia List Bool Arith Ring Field Field_theory.
From Verif Require Import Field BigIntModel BigIntProof ParallelizeModel ParallelizeProof ParallelizeExtra SemigroupModel PolyModel PolySpec PolyProof PolyProof3 FFTModel FFTSpec FFTProof FFTProof3 FFTProof4 FFTProof5 FFTExtra DomainModel DomainSpec DomainProof DomainProof2 DomainExtra
  R1csModel R1csSpec QapModel QapSpec QapProof QapProof2.
Import ListNotations.

Section QapExtra.
  Variable K : fld.
  Add Field Kq3 : (fld_theory K).
  Open Scope fld_scope.

  Lemma h_chunk_spec (t x dinv : K) : forall chunk s, h_chunk t x dinv (x ^ s) chunk = map (fun i => x ^ i * t * dinv) (seq s (length chunk)).
  Proof.
    induction chunk as [|c chunk IH]; intros s; [reflexivity|]. cbn [length seq map h_chunk].
    assert (E : x ^ s * x = x ^ S s) by (cbn [fpow]; ring). rewrite E, IH. destruct chunk; reflexivity.
  Qed.
  Lemma h_chunk_length (t x dinv : K) : forall chunk y, length (h_chunk t x dinv y chunk) = length chunk.
  Proof. induction chunk as [|c chunk IH]; intros y; [reflexivity|]. cbn [h_chunk]. specialize (IH (y * x)). destruct chunk; cbn [length] in *; [reflexivity|]. rewrite IH. reflexivity. Qed.
  Lemma h_query_spec adicity (root : K) k d threads t x dinv : (adicity < 62)%nat -> primitive_root root (2 ^ adicity) -> (k <= adicity)%nat -> radix2_domain adicity root k 1 d ->
    (0 < threads < 2 ^ 62)%Z -> compute_h_query threads d t x dinv = Some (map (fun i => x ^ i * t * dinv) (seq 0 (2 ^ k - 1))).
  Proof.
    intros Ha HP Hk HR Ht. destruct (rdom_ok K _ _ _ _ _ Ha HP Hk HR) as [HD _]. pose proof (pow2_small k ltac:(lia)) as Hs.
    unfold compute_h_query. rewrite (do_size _ _ _ _ _ HD).
    rewrite (parallelize_pointwise (fun i => x ^ i * t * dinv)).
    - rewrite repeat_length. reflexivity.
    - lia.
    - rewrite repeat_length. lia.
    - intros i c s. apply h_chunk_length.
    - intros i c s Hi Hc Hne Hl. rewrite repeat_length in Hl. assert (0 <= i * c)%Z by nia.
      rewrite trunc_small by lia. rewrite do_pow_fpow by lia. apply h_chunk_spec.
  Qed.

  (** What the key and the coefficients of h give together: h(x) t(x) / delta. *)
  Lemma h_inner (h : list K) (x t dinv : K) n : (length h <= n)%nat ->
    inner h (firstn (length h) (map (fun i => x ^ i * t * dinv) (seq 0 n))) = eval h x * t * dinv.
  Proof.
    assert (W : forall (h : list K) s n, (length h <= n)%nat -> inner h (firstn (length h) (map (fun i => x ^ i * t * dinv) (seq s n))) = x ^ s * eval h x * t * dinv).
    { clear. induction h as [|c h IH]; intros s n Hn.
      - cbn [length firstn]. rewrite eval_nil. rewrite (inner_nil K). ring.
      - destruct n as [|n]; [cbn in Hn; lia|]. cbn [length seq map firstn]. rewrite (inner_cons K), IH, eval_cons by (cbn in Hn; lia). cbn [fpow]. ring. }
    intros Hn. rewrite W by exact Hn. cbn [fpow]. ring.
  Qed.

  Lemma h_query_all adicity (root : K) k d threads t x dinv : (adicity < 62)%nat -> primitive_root root (2 ^ adicity) -> (k <= adicity)%nat -> radix2_domain adicity root k 1 d ->
    (0 < threads < 2 ^ 62)%Z -> exists q, compute_h_query threads d t x dinv = Some q /\ length q = (2 ^ k - 1)%nat /\
    (forall i, (i < 2 ^ k - 1)%nat -> nth i q 0 = x ^ i * t * dinv) /\
    forall h, (length h < 2 ^ k)%nat -> inner h (firstn (length h) q) = eval h x * t * dinv.
  Proof.
    intros Ha HP Hk HR Ht. eexists. split; [apply (h_query_spec adicity root k); auto|]. split; [rewrite map_length, seq_length; reflexivity|]. split.
    - intros i Hi. pose proof (tab_coeff K (fun i => x ^ i * t * dinv) (2 ^ k - 1) i) as T. unfold coeff in T. rewrite T. destruct (Nat.ltb_spec i (2 ^ k - 1)); [reflexivity|lia].
    - intros h Hh. apply h_inner. lia.
  Qed.

  (** The three polynomials exist. *)
  Lemma interpolant adicity (root : K) k d (v : nat -> K) : (adicity < 62)%nat -> primitive_root root (2 ^ adicity) -> (k <= adicity)%nat -> radix2_domain adicity root k 1 d ->
    exists p, interpolates p (generator adicity root k) (2 ^ k) v.
  Proof.
    intros Ha HP Hk HR. assert (HS : schedules (fun A (t : nat) (l : list A) => l)) by (intros A t l; apply Permutation.Permutation_refl).
    destruct (fresh_item K adicity root k 1 d true 1 _ false Ha HP Hk HR ltac:(lia) HS) as (it & _ & HI).
    destruct (ifft_correct K adicity root k 1 d true 1 _ it (map v (seq 0 (2 ^ k))) Ha HP Hk HR ltac:(lia) HS HI) as (f & _ & _ & L & V).
    { rewrite map_length, seq_length. reflexivity. }
    exists f. split; [exact L|]. intros i Hi. transitivity (nth i (values_on f 1 (generator adicity root k) (2 ^ k)) 0).
    - rewrite (values_on_nth K) by exact Hi. f_equal. ring.
    - rewrite V. pose proof (tab_coeff K v (2 ^ k) i) as T. unfold coeff in T. rewrite T. destruct (Nat.ltb_spec i (2 ^ k)); [reflexivity|lia].
  Qed.
End QapExtra.

Theorem qap_instance : forall (K : fld) (adicity : nat) (root : K) (k : nat) (d : domain K) (threads : Z) (m : matrices K) (x : K),
  (adicity < 62)%nat -> primitive_root root (2 ^ adicity) -> (k <= adicity)%nat -> radix2_domain adicity root k 1%fld d -> (0 < threads < 128)%Z ->
  well_shaped m -> (m_con m + m_inst m <= 2 ^ k)%nat ->
  exists q, instance_map threads d m x = Some q /\ q_t q = (x ^ (2 ^ k) - 1)%fld /\
    (q_t q = 0%fld <-> In x (coset_points 1%fld (generator adicity root k) (2 ^ k))) /\
    length (q_a q) = (m_inst m + m_wit m)%nat /\ length (q_b q) = (m_inst m + m_wit m)%nat /\ length (q_c q) = (m_inst m + m_wit m)%nat /\
    forall z, length z = (m_inst m + m_wit m)%nat ->
      (exists A B C, qap_polys m z (generator adicity root k) (2 ^ k) A B C) /\
      forall A B C, qap_polys m z (generator adicity root k) (2 ^ k) A B C ->
        inner z (q_a q) = eval A x /\ inner z (q_b q) = eval B x /\ inner z (q_c q) = eval C x.
Proof.
  intros K adicity root k d threads m x Ha HP Hk HR Ht HM Hn.
  destruct (instance_map_spec K adicity root k d threads m x Ha HP Hk HR Ht HM Hn) as (q & H1 & H2 & H3 & H4 & H5 & H6 & H7).
  exists q. repeat (split; [assumption|]). intros z Hz. split; [|intros A B C; apply H7; exact Hz].
  destruct (interpolant K adicity root k d (a_value m z) Ha HP Hk HR) as (A & HA). destruct (interpolant K adicity root k d (b_value m z) Ha HP Hk HR) as (B & HB).
  destruct (interpolant K adicity root k d (c_value m z) Ha HP Hk HR) as (C & HC). exists A, B, C. split; [exact HA|]. split; [exact HB|exact HC].
Qed.
