(** The radix-2 transforms compute discrete Fourier transforms. *)
From Coq Require Import ZArith List Bool Lia Arith Permutation Ring Field Field_theory.
From Verif Require Import Field BigIntModel BitsModel BitsProof BitsSpec ParallelizeModel ParallelizeProof SemigroupModel SemigroupProof PolyModel PolySpec PolyProof3 FFTModel FFTSpec FFTProof.
Import ListNotations.
Open Scope fld_scope.

Section DFT.
  Variable K : fld.
  Add Field Kf : (fld_theory K).
  Implicit Types (w x y : K) (a f : nat -> K).

  Lemma fsum_even_odd (F : nat -> K) : forall n,
    fsum (map F (seq 0 (2 * n))) = fsum (map (fun i => F (2 * i)%nat) (seq 0 n)) + fsum (map (fun i => F (2 * i + 1)%nat) (seq 0 n)).
  Proof.
    induction n; [cbn; ring|]. replace (2 * S n)%nat with (S (S (2 * n))) by lia.
    rewrite !seq_S, !map_app, !fsum_app, IHn. cbn [map fsum]. rewrite !Nat.add_0_l.
    replace (2 * n + 1)%nat with (S (2 * n)) by lia. ring.
  Qed.
  Lemma fsum_halves (F : nat -> K) n :
    fsum (map F (seq 0 (2 * n))) = fsum (map F (seq 0 n)) + fsum (map (fun i => F (n + i)%nat) (seq 0 n)).
  Proof.
    replace (2 * n)%nat with (n + n)%nat by lia. rewrite seq_app, map_app, fsum_app. f_equal. cbn [plus].
    rewrite <- (map_add_seq n n), map_map. reflexivity.
  Qed.

  Lemma opp1_sq : (- (1)) * (- (1)) = (1 : K). Proof. ring. Qed.

  Lemma m1_even m : (- (1) : K) ^ (2 * m) = 1.
  Proof. rewrite fpow_mul. cbn [fpow]. replace (- (1) * (- (1) * 1)) with (1 : K) by ring. apply fpow_one. Qed.

  (** [w] behaves like a root of order 2^k. *)
  Definition unity (k : nat) w : Prop := w ^ (2 ^ k) = 1 /\ forall j, k = S j -> w ^ (2 ^ j) = - (1).
  Lemma unity_pow k w m : unity k w -> w ^ (2 ^ k * m) = 1.
  Proof. intros [H _]. rewrite fpow_mul, H. apply fpow_one. Qed.
  Lemma unity_neq0 k w : unity k w -> w <> 0.
  Proof. intros [H _] ->. rewrite fpow_0 in H by (pose proof (pow2_1 k); lia). apply (f1_neq_0 K). auto. Qed.
  Lemma unity_inv k w : unity k w -> unity k (finv w).
  Proof.
    intros H. pose proof (unity_neq0 k w H) as Hw. destruct H as [H1 H2]. split.
    - rewrite fpow_finv by auto. rewrite H1. field. apply f1_neq_0.
    - intros j Hj. rewrite fpow_finv by auto. rewrite (H2 j Hj). symmetry. apply finv_unique. ring.
  Qed.

  (** ** Decimation in time *)
  Definition tstate a w (k s c t : nat) : K :=
    fsum (map (fun m => a (c + m * 2 ^ (k - s))%nat * w ^ (2 ^ (k - s) * (t * m))) (seq 0 (2 ^ s))).
  (** What position [p] holds after [s] layers. *)
  Definition tpos a w (k s p : nat) : K := tstate a w k s (brev (k - s) (Nat.div p (2 ^ s))) (Nat.modulo p (2 ^ s)).

  Lemma tstate_step a w k s c t : unity k w -> (s < k)%nat -> (t < 2 ^ s)%nat ->
    let u := w ^ (2 ^ (k - 1 - s) * t) in
    tstate a w k (S s) c t = tstate a w k s c t + tstate a w k s (c + 2 ^ (k - 1 - s)) t * u /\
    tstate a w k (S s) c (t + 2 ^ s) = tstate a w k s c t - tstate a w k s (c + 2 ^ (k - 1 - s)) t * u.
  Proof.
    intros [_ Hm1] Hs Ht u. unfold tstate.
    replace (k - S s)%nat with (k - 1 - s)%nat by lia. set (D := (2 ^ (k - 1 - s))%nat) in *.
    replace (2 ^ (k - s))%nat with (2 * D)%nat by (unfold D; replace (k - s)%nat with (S (k - 1 - s)) by lia; reflexivity).
    set (N := (2 ^ s)%nat) in *. replace (2 ^ S s)%nat with (2 * N)%nat by reflexivity.
    assert (HDN : w ^ (D * N) = - (1)).
    { unfold D, N. rewrite <- Nat.pow_add_r. replace (k - 1 - s + s)%nat with (k - 1)%nat by lia. apply Hm1. lia. }
    rewrite !fsum_even_odd.
    assert (Hx : forall (F : nat -> K) q, fsum (map F (seq 0 N)) * q = fsum (map (fun i => q * F i) (seq 0 N))).
    { intros F q. rewrite fsum_map_mul. ring. }
    rewrite Hx. clear Hx. split.
    - f_equal; apply fsum_map_ext; intros m _.
      + f_equal; [f_equal; lia|f_equal; lia].
      + replace (c + (2 * m + 1) * D)%nat with (c + D + m * (2 * D))%nat by lia.
        replace (D * (t * (2 * m + 1)))%nat with (D * t + 2 * D * (t * m))%nat by lia.
        rewrite fpow_add. fold u. cbn [fpow]. ring.
    - match goal with |- ?p + ?q = ?r - ?z => replace (r - z) with (r + (- (1)) * z) by ring end.
      rewrite <- (fsum_map_mul K _ (- (1))). f_equal; apply fsum_map_ext; intros m _.
      + f_equal; [f_equal; lia|]. replace (D * ((t + N) * (2 * m)))%nat with (2 * D * (t * m) + D * N * (2 * m))%nat by lia.
        rewrite fpow_add, (fpow_mul K w (D * N)), HDN, m1_even. ring.
      + replace (c + (2 * m + 1) * D)%nat with (c + D + m * (2 * D))%nat by lia.
        replace (D * ((t + N) * (2 * m + 1)))%nat with (D * t + 2 * D * (t * m) + (D * N + D * N * (2 * m)))%nat by lia.
        rewrite !fpow_add, (fpow_mul K w (D * N)), HDN, m1_even. fold u. ring.
  Qed.

  Lemma divmod_at c b j : (j < c)%nat -> Nat.div (b * c + j) c = b /\ Nat.modulo (b * c + j) c = j.
  Proof.
    intros H. rewrite Nat.add_comm, Nat.div_add, Nat.mod_add by lia. rewrite Nat.div_small, Nat.mod_small by auto. lia.
  Qed.
  (** The butterfly of layer [s] in the natural order of positions. *)
  Lemma tpos_step a w k s b j : unity k w -> (s < k)%nat -> (j < 2 ^ s)%nat ->
    butterfly_out_in (tpos a w k s (b * (2 * 2 ^ s) + j)) (tpos a w k s (b * (2 * 2 ^ s) + j + 2 ^ s)) (w ^ (2 ^ (k - 1 - s) * j)) =
    (tpos a w k (S s) (b * (2 * 2 ^ s) + j), tpos a w k (S s) (b * (2 * 2 ^ s) + j + 2 ^ s)).
  Proof.
    intros Hw Hs Hj. unfold tpos, butterfly_out_in.
    replace (b * (2 * 2 ^ s) + j)%nat with (2 * b * 2 ^ s + j)%nat by lia.
    replace (2 * b * 2 ^ s + j + 2 ^ s)%nat with ((2 * b + 1) * 2 ^ s + j)%nat by lia.
    destruct (divmod_at (2 ^ s) (2 * b) j Hj) as [-> ->]. destruct (divmod_at (2 ^ s) (2 * b + 1) j Hj) as [-> ->].
    change (2 ^ S s)%nat with (2 * 2 ^ s)%nat.
    replace (2 * b * 2 ^ s + j)%nat with (b * (2 * 2 ^ s) + j)%nat by lia.
    replace ((2 * b + 1) * 2 ^ s + j)%nat with (b * (2 * 2 ^ s) + (j + 2 ^ s))%nat by lia.
    destruct (divmod_at (2 * 2 ^ s) b j ltac:(lia)) as [-> ->]. destruct (divmod_at (2 * 2 ^ s) b (j + 2 ^ s) ltac:(lia)) as [-> ->].
    replace (k - s)%nat with (S (k - 1 - s)) by lia. rewrite brev_S_even, brev_S_odd.
    replace (k - S s)%nat with (k - 1 - s)%nat by lia.
    destruct (tstate_step a w k s (brev (k - 1 - s) b) j Hw Hs Hj) as [E1 E2]. rewrite E1, E2.
    rewrite (Nat.add_comm (2 ^ (k - 1 - s))). reflexivity.
  Qed.
  Lemma tpos_0 a w k p : tpos a w k 0 p = a (brev k p).
  Proof.
    unfold tpos, tstate. cbn [Nat.pow seq map fsum]. rewrite Nat.div_1_r, Nat.sub_0_r.
    rewrite Nat.mul_0_l, Nat.add_0_r, !Nat.mul_0_r. cbn [fpow]. ring.
  Qed.
  Lemma tpos_k a w k p : (p < 2 ^ k)%nat -> tpos a w k k p = fsum (map (fun m => a m * w ^ (p * m)) (seq 0 (2 ^ k))).
  Proof.
    intros Hp. unfold tpos, tstate. rewrite Nat.sub_diag. cbn [brev Nat.pow]. rewrite Nat.mod_small by auto.
    apply fsum_map_ext. intros m _. f_equal; f_equal; lia.
  Qed.
  (** When all coefficients from 2^d on vanish, the first k - d layers copy. *)
  Lemma tpos_copied a w k d p : (d <= k)%nat -> (p < 2 ^ k)%nat -> (forall i, (2 ^ d <= i)%nat -> a i = 0) ->
    tpos a w k (k - d) p = a (brev k (Nat.div p (2 ^ (k - d)) * 2 ^ (k - d))).
  Proof.
    intros Hd Hp Ha. unfold tpos, tstate. replace (k - (k - d))%nat with d by lia.
    set (s := (k - d)%nat). set (q := Nat.div p (2 ^ s)).
    assert (E : brev k (q * 2 ^ s) = brev d q).
    { replace k with (s + d)%nat by (unfold s; lia).
      rewrite <- (Nat.add_0_r (q * 2 ^ s)), brev_split by (pose proof (pow2_1 s); lia). rewrite brev_0. lia. }
    rewrite E. pose proof (pow2_1 s). assert (Es : seq 0 (2 ^ s) = 0%nat :: seq 1 (2 ^ s - 1)) by (destruct (2 ^ s)%nat; [lia|cbn [seq]; f_equal; f_equal; lia]).
    rewrite Es. cbn [map fsum].
    rewrite (fsum_map_zero K). 2:{ intros m Hm. apply in_seq in Hm. rewrite Ha; [ring|]. nia. }
    rewrite Nat.mul_0_l, Nat.add_0_r, !Nat.mul_0_r. cbn [fpow]. ring.
  Qed.

  (** ** Decimation in frequency *)
  Definition fstate a v (k s c t : nat) : K :=
    fsum (map (fun m => a (t + m * 2 ^ (k - s))%nat * v ^ (c * (t + m * 2 ^ (k - s)))) (seq 0 (2 ^ s))).
  Definition fpos a v (k s p : nat) : K := fstate a v k s (brev s (Nat.div p (2 ^ (k - s)))) (Nat.modulo p (2 ^ (k - s))).
  Lemma fstate_step a v k s c t : unity k v -> (s < k)%nat ->
    let g := (2 ^ (k - 1 - s))%nat in
    fstate a v k (S s) c t = fstate a v k s c t + fstate a v k s c (t + g) /\
    fstate a v k (S s) (2 ^ s + c) t = (fstate a v k s c t - fstate a v k s c (t + g)) * v ^ (2 ^ s * t).
  Proof.
    intros [_ Hm1] Hs g. unfold fstate.
    replace (k - S s)%nat with (k - 1 - s)%nat by lia. fold g.
    replace (2 ^ (k - s))%nat with (2 * g)%nat by (unfold g; replace (k - s)%nat with (S (k - 1 - s)) by lia; reflexivity).
    set (N := (2 ^ s)%nat) in *. replace (2 ^ S s)%nat with (2 * N)%nat by reflexivity.
    assert (HDN : v ^ (N * g) = - (1)).
    { unfold g, N. rewrite <- Nat.pow_add_r. replace (s + (k - 1 - s))%nat with (k - 1)%nat by lia. apply Hm1. lia. }
    rewrite !fsum_even_odd. split.
    - f_equal; apply fsum_map_ext; intros m _; f_equal; try (f_equal; lia).
    - set (u := v ^ (N * t)).
      match goal with |- ?p + ?q = (?r - ?z) * u => replace ((r - z) * u) with (u * r + (- u) * z) by ring end.
      rewrite <- !fsum_map_mul. f_equal; apply fsum_map_ext; intros m _.
      + replace (t + 2 * m * g)%nat with (t + m * (2 * g))%nat by lia.
        replace ((N + c) * (t + m * (2 * g)))%nat with (N * t + c * (t + m * (2 * g)) + N * g * (2 * m))%nat by lia.
        rewrite !fpow_add, (fpow_mul K v (N * g)), HDN, m1_even. fold u. ring.
      + replace (t + (2 * m + 1) * g)%nat with (t + g + m * (2 * g))%nat by lia.
        replace ((N + c) * (t + g + m * (2 * g)))%nat with (N * t + c * (t + g + m * (2 * g)) + (N * g + N * g * (2 * m)))%nat by lia.
        rewrite !fpow_add, (fpow_mul K v (N * g)), HDN, m1_even. fold u. ring.
  Qed.
  Lemma fpos_step a v k s b j : unity k v -> (s < k)%nat -> (j < 2 ^ (k - 1 - s))%nat ->
    let g := (2 ^ (k - 1 - s))%nat in
    butterfly_in_out (fpos a v k s (b * (2 * g) + j)) (fpos a v k s (b * (2 * g) + j + g)) (v ^ (2 ^ s * j)) =
    (fpos a v k (S s) (b * (2 * g) + j), fpos a v k (S s) (b * (2 * g) + j + g)).
  Proof.
    intros Hw Hs Hj g. unfold fpos, butterfly_in_out.
    replace (2 ^ (k - s))%nat with (2 * g)%nat by (unfold g; replace (k - s)%nat with (S (k - 1 - s)) by lia; reflexivity).
    replace (2 ^ (k - S s))%nat with g by (unfold g; f_equal; lia).
    rewrite <- Nat.add_assoc.
    destruct (divmod_at (2 * g) b j ltac:(lia)) as [-> ->]. destruct (divmod_at (2 * g) b (j + g) ltac:(lia)) as [-> ->].
    replace (b * (2 * g) + j)%nat with (2 * b * g + j)%nat by lia.
    replace (b * (2 * g) + (j + g))%nat with ((2 * b + 1) * g + j)%nat by lia.
    destruct (divmod_at g (2 * b) j ltac:(lia)) as [-> ->]. destruct (divmod_at g (2 * b + 1) j ltac:(lia)) as [-> ->].
    rewrite brev_S_even, brev_S_odd.
    destruct (fstate_step a v k s (brev s b) j Hw Hs) as [E1 E2]. fold g in E1, E2. rewrite E1, E2. reflexivity.
  Qed.
  Lemma fpos_0 a v k p : (p < 2 ^ k)%nat -> fpos a v k 0 p = a p.
  Proof.
    intros Hp. unfold fpos, fstate. cbn [Nat.pow seq map fsum brev]. rewrite Nat.sub_0_r, Nat.mod_small by auto.
    rewrite Nat.mul_0_l, Nat.add_0_r. cbn [Nat.mul fpow]. ring.
  Qed.
  Lemma fpos_k a v k p : fpos a v k k p = fsum (map (fun m => a m * v ^ (brev k p * m)) (seq 0 (2 ^ k))).
  Proof.
    unfold fpos, fstate. rewrite Nat.sub_diag. cbn [Nat.pow]. rewrite Nat.div_1_r, Nat.mod_1_r.
    apply fsum_map_ext. intros m _. rewrite Nat.add_0_l, Nat.mul_1_r. reflexivity.
  Qed.
End DFT.
