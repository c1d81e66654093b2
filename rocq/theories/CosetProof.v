(** Two-adic cosets: vanishing polynomial, splitting, selectors, barycentric interpolation. *)
From Coq Require Import ZArith List Bool Lia Arith Permutation Ring Field Field_theory.
From Verif Require Import Field BitsModel BitsExtra ParallelizeModel ParallelizeSpec ParallelizeProof ParallelizeExtra SemigroupModel SemigroupSpec SemigroupProof SemigroupExtra
  PolySpec PolyProof3 FFTModel FFTSpec FFTProof FFTProof2 FFTProof4 FFTProof5 FFTExtra DomainSpec DomainProof CosetModel.
Import ListNotations.
Open Scope nat_scope.

Lemma interleave_perm a b : Permutation (seq 0 (a * b)) (flat_map (fun c => map (fun i => c + a * i) (seq 0 b)) (seq 0 a)).
Proof.
  apply NoDup_Permutation_bis.
  - apply seq_NoDup.
  - rewrite seq_length. assert (E : forall l, length (flat_map (fun c => map (fun i => c + a * i) (seq 0 b)) l) = length l * b).
    { induction l as [|c l IH]; [reflexivity|]. cbn [flat_map length]. rewrite app_length, map_length, seq_length, IH. lia. }
    rewrite E, seq_length. lia.
  - intros x Hx. apply in_seq in Hx. destruct (Nat.eq_dec a 0) as [->|Ha]; [cbn in Hx; lia|].
    apply in_flat_map. exists (x mod a). split; [apply in_seq; pose proof (Nat.mod_upper_bound x a Ha); lia|].
    apply in_map_iff. exists (x / a). split; [cbv beta; pose proof (Nat.div_mod x a Ha); lia|]. apply in_seq. split; [apply Nat.le_0_l|]. cbn [plus]. apply Nat.div_lt_upper_bound; [exact Ha|]. destruct Hx as [_ Hx]. exact Hx.
Qed.

Section Coset.
  Variable K : fld.
  Add Field Kcos : (fld_theory K).
  Open Scope fld_scope.
  Variables (adicity : nat) (root : K).
  Hypothesis Had : (adicity < 62)%nat.
  Hypothesis Hroot : primitive_root root (2 ^ adicity).
  Implicit Types (d : domain K) (h x : K).
  Notation gen k := (generator adicity root k).

  Lemma exp_pow2_spec x log : exp_pow2 x log = x ^ (2 ^ log).
  Proof using Type. clear Had Hroot adicity root.
    unfold exp_pow2. induction log as [|n IH]; [cbn [Nat.iter Nat.pow]; rewrite fpow_1; reflexivity|].
    change (Nat.iter (S n) (fun v => v * v) x) with ((Nat.iter n (fun v => v * v) x) * (Nat.iter n (fun v => v * v) x)). rewrite IH, <- fpow_add. f_equal. cbn [Nat.pow]. lia.
  Qed.
  Lemma gen_sub k j : (j <= k <= adicity)%nat -> gen (k - j) = gen k ^ (2 ^ j).
  Proof. intros H. unfold generator. rewrite <- fpow_mul, <- Nat.pow_add_r. do 2 f_equal. lia. Qed.

  Lemma new_coset_spec k h : (k <= adicity)%nat -> h <> 0 -> exists d, new_coset adicity root k h = Some d /\ radix2_domain adicity root k h d.
  Proof.
    intros Hk Hh. destruct (new_domain_ok K adicity root k ltac:(lia) Hk Hroot) as (_ & d0 & E & HD).
    assert (Ec : create_domain adicity root (2 ^ k) = Some d0).
    { rewrite create_domain_eq, log2_up_pow2; [exact E|]. rewrite pow2_Z. apply Z.pow_le_mono_r; lia. }
    destruct (get_coset_ok K k _ _ h d0 ltac:(lia) HD Hh) as (d & Eg & _). exists d. unfold new_coset. rewrite Ec. split; [exact Eg|].
    exists d0. auto.
  Qed.
  Lemma zp_spec d k h x : (k <= adicity)%nat -> radix2_domain adicity root k h d ->
    zp_at d x = (x * finv h) ^ (2 ^ k) - 1 /\ (zp_at d x = 0 <-> In x (coset_points h (gen k) (2 ^ k))).
  Proof.
    intros Hk HR. destruct (rdom_ok K _ _ _ _ _ Had Hroot Hk HR) as [HD HG]. pose proof (do_off_nz _ _ _ _ _ HD) as Hh.
    assert (E : zp_at d x = (x * finv h) ^ (2 ^ k) - 1).
    { unfold zp_at. rewrite exp_pow2_spec, (do_oinv _ _ _ _ _ HD), (do_log _ _ _ _ _ HD). reflexivity. }
    split; [exact E|]. rewrite E. rewrite <- (vanishing_zero K h (gen k) (2 ^ k) x (pow2_1 k) HG Hh).
    rewrite fpow_mul_base, fpow_finv by exact Hh. assert (Hhn : h ^ (2 ^ k) <> 0) by (apply fpow_neq0; exact Hh).
    assert (X : x ^ (2 ^ k) * finv (h ^ (2 ^ k)) - 1 = (x ^ (2 ^ k) - h ^ (2 ^ k)) * finv (h ^ (2 ^ k))) by (field; exact Hhn).
    rewrite X. split.
    - intros H. destruct (fmul_integral K _ _ H) as [H'|H']; [exact H'|]. exfalso. apply (f1_neq_0 K).
      rewrite <- (Finv_l (fld_theory K) (h ^ (2 ^ k)) Hhn). rewrite H'. ring.
    - intros ->. ring.
  Qed.
  Lemma next_point_spec d k h i : (k <= adicity)%nat -> radix2_domain adicity root k h d -> (i < 2 ^ k)%nat ->
    next_point d (nth i (coset_points h (gen k) (2 ^ k)) 0) = nth (Nat.modulo (S i) (2 ^ k)) (coset_points h (gen k) (2 ^ k)) 0.
  Proof.
    intros Hk HR Hi. destruct (rdom_ok K _ _ _ _ _ Had Hroot Hk HR) as [HD HG]. unfold next_point. rewrite (do_gen _ _ _ _ _ HD).
    rewrite !coset_nth by (auto; apply Nat.mod_upper_bound, pow2_nz).
    destruct (Nat.eq_dec (S i) (2 ^ k)) as [E|E].
    - rewrite E, Nat.mod_same by apply pow2_nz. cbn [fpow]. destruct HG as [HG _]. rewrite <- E in HG. cbn [fpow] in HG.
      transitivity (h * (gen k * gen k ^ i)); [ring|rewrite HG; ring].
    - rewrite Nat.mod_small by lia. cbn [fpow]. ring.
  Qed.

  Lemma split_loop_spec log g : (log <= adicity)%nat -> g <> 0 -> forall count f, f <> 0 ->
    exists ds, split_loop adicity root count log f g = Some ds /\ length ds = count /\
      forall c, (c < count)%nat -> exists d, nth_error ds c = Some d /\ radix2_domain adicity root log (f * g ^ c) d.
  Proof.
    intros Hl Hg. induction count as [|c IH]; intros f Hf; [exists []; split; [reflexivity|]; split; [reflexivity|]; intros; lia|].
    cbn [split_loop]. destruct (new_coset_spec log f Hl Hf) as (d & -> & HR).
    destruct (IH (f * g)) as (ds & -> & HL & HI); [apply fmul_neq0; auto|]. exists (d :: ds). split; [reflexivity|]. split; [cbn; lia|].
    intros [|i] Hi.
    - exists d. split; [reflexivity|]. cbn [fpow]. replace (f * 1) with f by ring. exact HR.
    - destruct (HI i ltac:(lia)) as (d' & E & HR'). exists d'. split; [exact E|]. cbn [fpow]. replace (f * (g * g ^ i)) with (f * g * g ^ i) by ring. exact HR'.
  Qed.
  Lemma split_spec d k h j : (k <= adicity)%nat -> radix2_domain adicity root k h d -> (j <= k)%nat ->
    exists ds, split_domains adicity root d (2 ^ j) = Some ds /\ length ds = (2 ^ j)%nat /\
      (forall c, (c < 2 ^ j)%nat -> exists dc, nth_error ds c = Some dc /\ radix2_domain adicity root (k - j) (h * gen k ^ c) dc).
  Proof.
    intros Hk HR Hj. destruct (rdom_ok K _ _ _ _ _ Had Hroot Hk HR) as [HD HG]. unfold split_domains. rewrite checked_log2_pow2 by lia. rewrite Nat2Z.id.
    rewrite (do_log _ _ _ _ _ HD), (do_gen _ _ _ _ _ HD), (do_off _ _ _ _ _ HD). rewrite (proj2 (Nat.ltb_ge _ _)) by lia.
    apply split_loop_spec; [lia| |exact (do_off_nz _ _ _ _ _ HD)]. eapply unity_neq0. apply primitive_unity. exact HG.
  Qed.
  Lemma split_too_many d k h j : (k <= adicity)%nat -> radix2_domain adicity root k h d -> (k < j < 64)%nat -> split_domains adicity root d (2 ^ j) = None.
  Proof.
    intros Hk HR Hj. destruct (rdom_ok K _ _ _ _ _ Had Hroot Hk HR) as [HD HG]. unfold split_domains. rewrite checked_log2_pow2 by lia. rewrite Nat2Z.id.
    rewrite (do_log _ _ _ _ _ HD). rewrite (proj2 (Nat.ltb_lt _ _)) by lia. reflexivity.
  Qed.
  Lemma split_points k h j : (k <= adicity)%nat -> (j <= k)%nat ->
    Permutation (coset_points h (gen k) (2 ^ k)) (flat_map (fun c => coset_points (h * gen k ^ c) (gen (k - j)) (2 ^ (k - j))) (seq 0 (2 ^ j))).
  Proof.
    intros Hk Hj. unfold coset_points at 1. replace (2 ^ k)%nat with (2 ^ j * 2 ^ (k - j))%nat by (rewrite <- Nat.pow_add_r; f_equal; lia).
    rewrite (Permutation_map _ (interleave_perm (2 ^ j) (2 ^ (k - j)))).
    assert (E : forall l, map (fun i => h * gen k ^ i) (flat_map (fun c => map (fun i => (c + 2 ^ j * i)%nat) (seq 0 (2 ^ (k - j)))) l) =
      flat_map (fun c => coset_points (h * gen k ^ c) (gen (k - j)) (2 ^ (k - j))) l).
    { induction l as [|c l IH]; [reflexivity|]. cbn [flat_map]. rewrite map_app, IH. f_equal. unfold coset_points. rewrite map_map. apply map_ext.
      intros i. rewrite gen_sub by lia. rewrite fpow_add, <- fpow_mul. ring. }
    rewrite E. apply Permutation_refl.
  Qed.

  (** ** Disjoint cosets *)
  Lemma disjoint_spec d k h sg (m : nat) : (k <= adicity)%nat -> radix2_domain adicity root k h d -> sg ^ (2 ^ adicity) <> 1 -> sg <> 0 -> (0 < m)%nat -> (m <= 2 ^ adicity)%nat ->
    exists d' k', disjoint_domain adicity root sg d (Z.of_nat m) = Some d' /\ (k' <= adicity)%nat /\ radix2_domain adicity root k' (h * sg) d' /\
      (m <= 2 ^ k')%nat /\ (forall j, (m <= 2 ^ j)%nat -> (k' <= j)%nat) /\
      forall x, In x (coset_points h (gen k) (2 ^ k)) -> ~ In x (coset_points (h * sg) (gen k') (2 ^ k')).
  Proof.
    intros Hk HR Hsg Hsg0 Hm Hm'. destruct (rdom_ok K _ _ _ _ _ Had Hroot Hk HR) as [HD HG]. pose proof (do_off_nz _ _ _ _ _ HD) as Hh.
    unfold disjoint_domain. rewrite (do_off _ _ _ _ _ HD).
    assert (Hb : (Z.of_nat m <= 2 ^ 63)%Z).
    { assert (Z.of_nat (2 ^ adicity) <= 2 ^ 63)%Z by (rewrite pow2_Z; apply Z.pow_le_mono_r; lia). lia. }
    pose proof (safe_log2_nat m Hm ltac:(lia)) as HS. cbv zeta in HS. set (k' := Z.to_nat (safe_log2_ceiling 64 (Z.of_nat m))) in *. destruct HS as [S1 S2].
    assert (Hk' : (k' <= adicity)%nat) by (apply S2; exact Hm').
    destruct (new_coset_spec k' (h * sg) Hk') as (d' & E & HR'); [apply fmul_neq0; auto|].
    exists d', k'. split; [exact E|]. split; [exact Hk'|]. split; [exact HR'|]. split; [exact S1|]. split; [exact S2|].
    intros x H1 H2. unfold coset_points in H1, H2. apply in_map_iff in H1. destruct H1 as (a & <- & _). apply in_map_iff in H2. destruct H2 as (b & E2 & _).
    apply Hsg. assert (E3 : sg * gen k' ^ b = gen k ^ a).
    { apply (fmul_cancel_l K h); [exact Hh|]. rewrite <- E2. ring. }
    assert (G1 : forall j c, (j <= adicity)%nat -> (gen j ^ c) ^ (2 ^ adicity) = 1).
    { intros j c Hj. unfold generator. rewrite <- !fpow_mul. destruct Hroot as [Hr _].
      replace (2 ^ (adicity - j) * (c * 2 ^ adicity))%nat with (2 ^ adicity * (2 ^ (adicity - j) * c))%nat by lia. rewrite (fpow_mul K root (2 ^ adicity) (2 ^ (adicity - j) * c)%nat), Hr. apply fpow_one. }
    apply (f_equal (fun y => y ^ (2 ^ adicity))) in E3. rewrite fpow_mul_base, !G1 in E3 by auto. rewrite <- E3. ring.
  Qed.

  (** ** Selectors *)
  Lemma selectors_at_spec d k h x : (k <= adicity)%nat -> radix2_domain adicity root k h d ->
    let u := x * finv h in
    (In x (coset_points h (gen k) (2 ^ k)) -> selectors_at d x = None) /\
    (~ In x (coset_points h (gen k) (2 ^ k)) ->
      selectors_at d x = Some {| s_first := (u ^ (2 ^ k) - 1) * finv (u - 1); s_last := (u ^ (2 ^ k) - 1) * finv (u - finv (gen k));
                                 s_transition := u - finv (gen k); s_inv_zeroifier := finv (u ^ (2 ^ k) - 1) |}
      /\ u - 1 <> 0 /\ u - finv (gen k) <> 0 /\ u ^ (2 ^ k) - 1 <> 0).
  Proof.
    intros Hk HR u. destruct (rdom_ok K _ _ _ _ _ Had Hroot Hk HR) as [HD HG]. destruct (zp_spec d k h x Hk HR) as [Z1 Z2].
    assert (Ez : zp_at d x = exp_pow2 u (d_log d) - 1) by (unfold zp_at, u; rewrite (do_oinv _ _ _ _ _ HD); reflexivity).
    unfold selectors_at. rewrite (do_oinv _ _ _ _ _ HD), (do_ginv _ _ _ _ _ HD). fold u. rewrite <- Ez.
    split; intros H.
    - replace (feqb (zp_at d x) 0) with true by (symmetry; apply feqb_eq, Z2, H). rewrite !orb_true_r. reflexivity.
    - assert (N3 : zp_at d x <> 0) by (intros E; apply H, Z2, E).
      assert (N1 : u - 1 <> 0).
      { intros E. apply N3. rewrite Z1. fold u. replace u with (u - 1 + 1) by ring. rewrite E. replace (0 + 1) with (1 : K) by ring. rewrite fpow_one. ring. }
      assert (N2 : u - finv (gen k) <> 0).
      { intros E. apply N3. rewrite Z1. fold u. replace u with (u - finv (gen k) + finv (gen k)) by ring. rewrite E.
        replace (0 + finv (gen k)) with (finv (gen k)) by ring. destruct (unity_inv K k (gen k) (primitive_unity K _ _ HG)) as [X _]. rewrite X. ring. }
      rewrite (proj2 (feqb_neq K _ _) N1), (proj2 (feqb_neq K _ _) N2), (proj2 (feqb_neq K _ _) N3). cbn [orb].
      rewrite Z1 in N3 |- *. fold u in N3 |- *. auto.
  Qed.

  Lemma walk_spec g n : forall x, walk x g n = map (fun i => x * g ^ i) (seq 0 n).
  Proof using Type. clear Had Hroot adicity root.
    induction n as [|n IH]; intros x; [reflexivity|]. cbn [walk seq map]. f_equal; [cbn [fpow]; ring|].
    rewrite IH, <- seq_shift, map_map. apply map_ext. intros i. cbn [fpow]. ring.
  Qed.
  Lemma walk_chunk h g (start len : Z) : (0 <= start < 2 ^ 64)%Z ->
    walk (h * do_pow 1 fmul (fun y => y * y) [start] g) g (Z.to_nat len) = map (fun i => h * g ^ i) (seq (Z.to_nat start) (Z.to_nat len)).
  Proof using Type. clear Had Hroot adicity root.
    intros Hs. rewrite walk_spec, do_pow_fpow by exact Hs. rewrite <- (map_seq_shift (fun i => h * g ^ i)). apply map_ext. intros i. rewrite fpow_add. ring.
  Qed.
  Definition inv0 (x : K) : K := if feqb x 0 then 0 else 1 * finv x.
  Lemma batch_inv_spec (l : list K) : batch_inverse_serial 0 1 fmul (fun x : K => if feqb x 0 then None else Some (finv x)) (fun x => feqb x 0) (fun x => feqb x 1) true l l 1 = Some (map inv0 l).
  Proof using Type. clear Had Hroot adicity root. exact (batch_serial K true l l 1 eq_refl (fun _ => eq_refl)). Qed.
  Lemma combine_map2 {A B C} (f : A -> B) (g : A -> C) l : combine (map f l) (map g l) = map (fun y : A => (f y, g y)) l.
  Proof using Type. clear Had Hroot adicity root. induction l; cbn; congruence. Qed.

  Lemma tiles_bound calls : forall idx pos stop, (0 <= pos)%Z -> tiles idx pos calls stop -> Forall (fun c => (0 <= snd (fst c) < stop)%Z) calls.
  Proof using Type. clear Had Hroot adicity root.
    induction calls as [|[[i s] n] cs IH]; intros idx pos stop Hp HT; [constructor|]. cbn [tiles] in HT. destruct HT as (-> & -> & Hn & HT).
    pose proof (tiles_le _ _ _ _ HT). constructor; [cbn; lia|]. apply (IH (idx + 1)%Z (pos + n)%Z); [lia|exact HT].
  Qed.

  Lemma gather_spec {A} (F1 F2 F3 F4 : A -> list K) calls :
    gather (map (fun c => Some (F1 c, F2 c, F3 c, F4 c)) calls) =
      Some {| s_first := concat (map F1 calls); s_last := concat (map F2 calls); s_transition := concat (map F3 calls); s_inv_zeroifier := concat (map F4 calls) |}.
  Proof using Type. clear Had Hroot adicity root. induction calls as [|c cs IH]; [reflexivity|]. cbn [map gather]. rewrite IH. reflexivity. Qed.

  Lemma one_chunk threads : (0 < threads < 2 ^ 63)%Z -> chunk_calls 1 (num_elements_per_thread threads 1 None) = [(0, 0, 1)%Z] /\ num_elements_per_thread threads 1 None = 1%Z.
  Proof using Type. clear Had Hroot adicity root.
    intros Ht. assert (E : num_elements_per_thread threads 1 None = 1%Z).
    { destruct (container_chunk threads 1 None) as [[H _]|[_ H]]; lia. }
    rewrite E. split; [reflexivity|reflexivity].
  Qed.

  Lemma selectors_on_spec threads d coset k h : (0 < threads < 2 ^ 62)%Z -> (k <= adicity)%nat -> radix2_domain adicity root k 1 d -> radix2_domain adicity root k h coset ->
    h <> 1 ->
    let x i := h * gen k ^ i in
    let z := h ^ (2 ^ k) - 1 in
    selectors_on threads d coset = Some {|
      s_first := map (fun i => inv0 (x i - 1) * z) (seq 0 (2 ^ k)); s_last := map (fun i => inv0 (x i - finv (gen k)) * z) (seq 0 (2 ^ k));
      s_transition := map (fun i => x i - finv (gen k)) (seq 0 (2 ^ k)); s_inv_zeroifier := map (fun i => inv0 z) (seq 0 (2 ^ k)) |}.
  Proof.
    intros Ht Hk HR1 HR2 Hh x z. destruct (rdom_ok K _ _ _ _ _ Had Hroot Hk HR1) as [D1 HG]. destruct (rdom_ok K _ _ _ _ _ Had Hroot Hk HR2) as [D2 _].
    unfold selectors_on. rewrite (do_off _ _ _ _ _ D1), (do_off _ _ _ _ _ D2), (do_log _ _ _ _ _ D1), (do_log _ _ _ _ _ D2), (do_size _ _ _ _ _ D2).
    rewrite feqb_refl, (proj2 (feqb_neq K _ _) Hh), Nat.leb_refl, Nat.ltb_irrefl, Nat.sub_diag. cbn [negb].
    destruct (one_chunk threads ltac:(lia)) as [O1 O2]. change (Z.of_nat (2 ^ 0)) with 1%Z. rewrite O1, O2.
    cbn [map evals_chunk concat]. change (Z.to_nat 1) with 1%nat. cbn [repeat app]. rewrite do_pow_fpow by lia.
    change (Z.to_nat 0) with 0%nat. cbn [fpow]. rewrite !exp_pow2_spec. replace (h ^ (2 ^ k) * 1 - 1) with z by (unfold z; ring).
    unfold inv_chunk. cbn [concat_opt]. change (Z.to_nat 0) with 0%nat. change (Z.to_nat 1) with 1%nat. cbn [length plus Nat.leb skipn firstn].
    rewrite batch_inv_spec. cbn [map firstn app].
    rewrite (do_gen _ _ _ _ _ D1), (do_ginv _ _ _ _ _ D1). destruct (primitive_unity K _ _ HG) as [Hn _]. rewrite Hn.
    replace (1 * finv (gen k)) with (finv (gen k)) by ring.
    set (N := Z.of_nat (2 ^ k)). set (calls := chunk_calls N _).
    assert (Hb : (2 * N + threads < 2 ^ 64)%Z) by (unfold N; pose proof (pow2_small k ltac:(lia)); lia).
    destruct (container_partition threads N None ltac:(lia) ltac:(unfold N; lia) Hb) as [HT _]. fold calls in HT.
    pose proof (tiles_bound calls 0 0 N ltac:(lia) HT) as HB.
    set (F1 := fun i => inv0 (x i - 1) * z). set (F2 := fun i => inv0 (x i - finv (gen k)) * z). set (F3 := fun i => x i - finv (gen k)). set (F4 := fun _ : nat => inv0 z).
    set (P := fun (F : nat -> K) (c : Z * Z * Z) => map F (seq (Z.to_nat (snd (fst c))) (Z.to_nat (snd c)))).
    assert (EQ : map (coset_chunk d coset (finv (gen k)) [z] [inv0 z]) calls = map (fun c => Some (P F1 c, P F2 c, P F3 c, P F4 c)) calls).
    { apply map_ext_in. intros [[i s] n] Hc. rewrite Forall_forall in HB. specialize (HB _ Hc). cbn in HB. unfold coset_chunk, P. cbn [fst snd].
      rewrite (do_off _ _ _ _ _ D2), (do_gen _ _ _ _ _ D2), (do_ginv _ _ _ _ _ D1), walk_chunk by (unfold N in HB; pose proof (pow2_small k ltac:(lia)); lia).
      rewrite !map_map. rewrite !batch_inv_spec. rewrite !map_map. cbn [length]. rewrite !combine_map2, !map_map. cbn [fst snd].
      repeat f_equal; apply map_ext; intros j; rewrite Nat.mod_1_r; reflexivity. }
    rewrite EQ, gather_spec. unfold P. rewrite !(tiles_pointwise _ calls 0 0 N) by (auto; lia).
    rewrite Z.sub_0_r. unfold N. rewrite Nat2Z.id. reflexivity.
  Qed.
  Lemma selectors_on_larger threads d coset k k' h : (k < k' <= adicity)%nat -> radix2_domain adicity root k 1 d -> radix2_domain adicity root k' h coset ->
    selectors_on threads d coset = None.
  Proof.
    intros Hk HR1 HR2. destruct (rdom_ok K adicity root k 1 d Had Hroot ltac:(lia) HR1) as [D1 _]. destruct (rdom_ok K adicity root k' h coset Had Hroot ltac:(lia) HR2) as [D2 _].
    unfold selectors_on. rewrite (do_log _ _ _ _ _ D1), (do_log _ _ _ _ _ D2). rewrite (proj2 (Nat.leb_gt _ _)) by lia.
    destruct (negb _); [reflexivity|]. destruct (feqb _ _); reflexivity.
  Qed.
End Coset.
