(** Proofs about base/bits.h. *)
From Coq Require Import ZArith List Bool Lia.
From Coq Require Import ZifyBool ZifyNat.
From Verif Require Import BigIntModel BitsModel BitsSpec.
Open Scope Z_scope.

Lemma pow2_S k : 2 ^ Z.of_nat (S k) = 2 * 2 ^ Z.of_nat k.
Proof. rewrite Nat2Z.inj_succ, Z.pow_succ_r by lia. reflexivity. Qed.
Lemma pow2_pos' k : 0 < 2 ^ Z.of_nat k. Proof. apply Z.pow_pos_nonneg; lia. Qed.

Lemma rev_bits_range : forall k x, 0 <= x -> 0 <= rev_bits k x < 2 ^ Z.of_nat k.
Proof.
  induction k as [|k IH]; intros x Hx; [cbn; lia|]. cbn [rev_bits]. rewrite pow2_S.
  pose proof (IH (x / 2) ltac:(apply Z.div_pos; lia)). pose proof (Z.mod_pos_bound x 2 ltac:(lia)).
  pose proof (pow2_pos' k). nia.
Qed.
Lemma rev_bits_0 : forall k, rev_bits k 0 = 0.
Proof. induction k as [|k IH]; [reflexivity|]. cbn [rev_bits]. change (0 mod 2) with 0. change (0 / 2) with 0. rewrite IH. reflexivity. Qed.

Lemma rev_bits_testbit : forall k x i, 0 <= x -> 0 <= i < Z.of_nat k ->
  Z.testbit (rev_bits k x) i = Z.testbit x (Z.of_nat k - 1 - i).
Proof.
  induction k as [|k IH]; intros x i Hx Hi; [lia|]. cbn [rev_bits].
  pose proof (rev_bits_range k (x / 2) ltac:(apply Z.div_pos; lia)) as HR.
  destruct (Z.eq_dec i (Z.of_nat k)) as [->|Hne].
  - replace (Z.of_nat (S k) - 1 - Z.of_nat k) with 0 by lia.
    rewrite Z.add_comm. apply Bool.eq_true_iff_eq. rewrite Z.testbit_true by lia.
    rewrite Z.div_add by lia. rewrite Z.div_small by lia. rewrite Z.add_0_l.
    rewrite Z.mod_mod by lia. rewrite <- Z.bit0_mod. destruct (Z.testbit x 0); cbn; split; intros; congruence.
  - replace (Z.of_nat (S k) - 1 - i) with (Z.succ (Z.of_nat k - 1 - i)) by lia.
    rewrite <- Z.div2_bits by lia. rewrite <- IH by (try apply Z.div_pos; lia).
    rewrite <- (Z.mod_pow2_bits_low _ (Z.of_nat k)) by lia.
    rewrite Z.add_comm, Z.mod_add by lia. rewrite Z.mod_pow2_bits_low by lia. reflexivity.
Qed.

Lemma rev_bits_involutive k x : 0 <= x < 2 ^ Z.of_nat k -> rev_bits k (rev_bits k x) = x.
Proof.
  intros Hx. pose proof (rev_bits_range k x ltac:(lia)) as R1.
  pose proof (rev_bits_range k (rev_bits k x) ltac:(lia)) as R2.
  apply Z.bits_inj'. intros i Hi. destruct (Z_lt_le_dec i (Z.of_nat k)) as [L|G].
  - rewrite rev_bits_testbit by lia. rewrite rev_bits_testbit by lia. f_equal. lia.
  - assert (E : forall y, 0 <= y < 2 ^ Z.of_nat k -> Z.testbit y i = false).
    { intros y Hy. destruct (Z.eq_dec y 0) as [->|Hn]; [apply Z.bits_0|]. apply Z.bits_above_log2; [lia|].
      apply Z.log2_lt_pow2; [lia|]. apply Z.lt_le_trans with (2 ^ Z.of_nat k); [lia|].
      apply Z.pow_le_mono_r; lia. }
    rewrite !E by lia. reflexivity.
Qed.
Lemma rev_bits_inj k x y : 0 <= x < 2 ^ Z.of_nat k -> 0 <= y < 2 ^ Z.of_nat k ->
  rev_bits k x = rev_bits k y -> x = y.
Proof. intros Hx Hy E. rewrite <- (rev_bits_involutive k x Hx), E. apply rev_bits_involutive. exact Hy. Qed.

Lemma rev_bits_app : forall k j x, 0 <= x < 2 ^ Z.of_nat k -> rev_bits (k + j) x = 2 ^ Z.of_nat j * rev_bits k x.
Proof.
  induction k as [|k IH]; intros j x Hx.
  - replace x with 0 by (cbn in Hx; lia). rewrite rev_bits_0. cbn. lia.
  - cbn [rev_bits Nat.add]. rewrite IH. 2: { rewrite pow2_S in Hx. split; [apply Z.div_pos; lia|]. apply Z.div_lt_upper_bound; lia. }
    rewrite Nat2Z.inj_add, Z.pow_add_r by lia. ring.
Qed.

Lemma bit_rev_loop_spec : forall fuel n rev count, 0 <= n < 2 ^ Z.of_nat (S count) -> 0 <= rev < 2 ^ 64 ->
  (count < fuel)%nat -> (count < 64)%nat ->
  bit_rev_loop fuel n rev (Z.of_nat count) = (rev * 2 ^ Z.of_nat count + rev_bits count (n / 2)) mod 2 ^ 64.
Proof.
  induction fuel as [|fuel IH]; intros n rev count Hn Hr Hf Hc; [lia|].
  cbn [bit_rev_loop]. rewrite Z.shiftr_div_pow2 by lia. change (2 ^ 1) with 2.
  rewrite pow2_S in Hn.
  destruct (0 <? n / 2) eqn:E.
  - destruct count as [|count].
    { assert (n / 2 < 1) by (apply Z.div_lt_upper_bound; cbn in Hn; lia). lia. }
    replace (Z.of_nat (S count) - 1) with (Z.of_nat count) by lia.
    assert (Hb : Z.lor (trunc 64 (Z.shiftl rev 1)) (Z.land (n / 2) 1) = trunc 64 (2 * rev) + (n / 2) mod 2).
    { rewrite Z.shiftl_mul_pow2 by lia. change (2 ^ 1) with 2. rewrite (Z.mul_comm rev 2).
      change 1 with (Z.ones 1) at 1. rewrite Z.land_ones by lia. change (2 ^ 1) with 2.
      unfold trunc. change (2 ^ 64) with (2 * 2 ^ 63). rewrite Z.mul_mod_distr_l by lia.
      rewrite <- Z.lxor_lor, <- Z.add_nocarry_lxor; auto.
      - apply Z.bits_inj'. intros i Hi. rewrite Z.land_spec, Z.bits_0.
        destruct (Z.eq_dec i 0) as [->|Hi0]; [rewrite Z.testbit_even_0; reflexivity|].
        replace (Z.testbit ((n / 2) mod 2) i) with false; [apply andb_false_r|].
        symmetry. change 2 with (2 ^ 1) at 2. apply Z.mod_pow2_bits_high. lia.
      - apply Z.bits_inj'. intros i Hi. rewrite Z.land_spec, Z.bits_0.
        destruct (Z.eq_dec i 0) as [->|Hi0]; [rewrite Z.testbit_even_0; reflexivity|].
        replace (Z.testbit ((n / 2) mod 2) i) with false; [apply andb_false_r|].
        symmetry. change 2 with (2 ^ 1) at 2. apply Z.mod_pow2_bits_high. lia. }
    rewrite Hb. rewrite IH; try lia.
    + cbn [rev_bits]. rewrite pow2_S. unfold trunc.
      rewrite Z.mul_add_distr_r.
      rewrite <- Z.add_assoc. rewrite <- (Z.add_mod_idemp_l _ _ (2 ^ 64)) by lia.
      rewrite Z.mul_mod_idemp_l by lia. rewrite Z.add_mod_idemp_l by lia. f_equal. ring.
    + unfold trunc. change (2 ^ 64) with (2 * 2 ^ 63). rewrite Z.mul_mod_distr_l by lia.
      pose proof (Z.mod_pos_bound rev (2 ^ 63) ltac:(lia)). pose proof (Z.mod_pos_bound (n / 2) 2 ltac:(lia)). lia.
  - assert (n / 2 = 0) by (pose proof (Z.div_pos n 2 ltac:(lia) ltac:(lia)); lia).
    rewrite H, rev_bits_0, Z.add_0_r. unfold trunc. rewrite Z.shiftl_mul_pow2 by lia. reflexivity.
Qed.

Lemma bit_rev_spec n : 0 <= n < 2 ^ 64 -> bit_rev n = rev_bits 64 n.
Proof.
  intros Hn. unfold bit_rev. change 63 with (Z.of_nat 63). rewrite bit_rev_loop_spec; try lia.
  change (rev_bits 64 n) with ((n mod 2) * 2 ^ Z.of_nat 63 + rev_bits 63 (n / 2)).
  pose proof (rev_bits_range 63 (n / 2) ltac:(apply Z.div_pos; lia)) as HR.
  pose proof (Z.div_mod n 2 ltac:(lia)) as D. pose proof (Z.mod_pos_bound n 2 ltac:(lia)).
  set (P := 2 ^ Z.of_nat 63) in *. change (2 ^ 64) with (2 * P) in *.
  rewrite D at 1. symmetry. apply Z.mod_unique_pos with (q := n / 2); [nia|]. ring.
Qed.

Lemma reverse_bits_len_spec k x : (0 < k <= 64)%nat -> 0 <= x < 2 ^ Z.of_nat k ->
  reverse_bits_len x (Z.of_nat k) = Some (rev_bits k x).
Proof.
  intros Hk Hx. unfold reverse_bits_len, trunc. rewrite Z.mod_small by lia.
  replace (64 - Z.of_nat k <? 64) with true by lia. f_equal.
  assert (2 ^ Z.of_nat k <= 2 ^ 64) by (apply Z.pow_le_mono_r; lia).
  rewrite bit_rev_spec by lia. replace 64%nat with (k + (64 - k))%nat by lia.
  rewrite rev_bits_app by auto. rewrite Z.shiftr_div_pow2 by lia.
  replace (64 - Z.of_nat k) with (Z.of_nat (64 - k)) by lia.
  rewrite Z.mul_comm, Z.div_mul; auto. pose proof (pow2_pos' (64 - k)). lia.
Qed.

(** ** Powers of two *)
Lemma land_pred_pow2 k : 0 <= k -> Z.land (2 ^ k) (2 ^ k - 1) = 0.
Proof.
  intros Hk. rewrite Z.sub_1_r, <- Z.ones_equiv. rewrite Z.land_ones by lia.
  apply Z.mod_same. pose proof (Z.pow_pos_nonneg 2 k). lia.
Qed.
Lemma is_power_of_two_spec v : is_power_of_two v = true <-> exists k, 0 <= k /\ v = 2 ^ k.
Proof.
  unfold is_power_of_two. split.
  - intros H. apply andb_prop in H. destruct H as [H1 H2].
    exists (Z.log2 v). split; [apply Z.log2_nonneg|].
    assert (Hv : 0 < v) by lia. destruct (Z.log2_spec v Hv) as [L U].
    destruct (Z.eq_dec v (2 ^ Z.log2 v)) as [E|E]; [exact E|exfalso].
    assert (T1 : Z.testbit v (Z.log2 v) = true) by (apply Z.bit_log2; lia).
    assert (T2 : Z.testbit (v - 1) (Z.log2 v) = true).
    { assert (El : Z.log2 (v - 1) = Z.log2 v) by (apply Z.log2_unique; [apply Z.log2_nonneg|lia]).
      rewrite <- El. apply Z.bit_log2. pose proof (Z.log2_nonneg v). pose proof (Z.pow_pos_nonneg 2 (Z.log2 v)). lia. }
    assert (Z.testbit (Z.land v (v - 1)) (Z.log2 v) = true) by (rewrite Z.land_spec, T1, T2; reflexivity).
    replace (Z.land v (v - 1)) with 0 in H by lia. rewrite Z.bits_0 in H. discriminate.
  - intros (k & Hk & ->). rewrite land_pred_pow2 by lia. pose proof (Z.pow_pos_nonneg 2 k). lia.
Qed.

Lemma land_compl_mask w x k : 0 <= k <= w -> 0 <= x < 2 ^ w ->
  Z.land x (2 ^ w - 1 - (2 ^ k - 1)) = x / 2 ^ k * 2 ^ k.
Proof.
  intros Hk Hx. assert (P : 0 < 2 ^ k) by (apply Z.pow_pos_nonneg; lia).
  replace (2 ^ w - 1 - (2 ^ k - 1)) with (Z.shiftl (Z.ones (w - k)) k).
  2: { rewrite Z.shiftl_mul_pow2 by lia. rewrite Z.ones_equiv.
       replace (2 ^ w) with (2 ^ (w - k) * 2 ^ k) by (rewrite <- Z.pow_add_r by lia; f_equal; lia). lia. }
  apply Z.bits_inj'. intros i Hi. rewrite Z.land_spec.
  destruct (Z_lt_le_dec i k) as [L|G].
  - rewrite Z.shiftl_spec_low by lia. rewrite andb_false_r. rewrite Z.mul_pow2_bits_low by lia. reflexivity.
  - rewrite Z.shiftl_spec by lia. rewrite Z.mul_pow2_bits by lia. rewrite Z.div_pow2_bits by lia.
    replace (i - k + k) with i by lia.
    destruct (Z_lt_le_dec i w) as [L2|G2].
    + rewrite Z.ones_spec_low by lia. apply andb_true_r.
    + rewrite Z.ones_spec_high by lia. rewrite andb_false_r. symmetry.
      destruct (Z.eq_dec x 0) as [->|Hn]; [apply Z.bits_0|]. apply Z.bits_above_log2; [lia|].
      apply Z.log2_lt_pow2; [lia|]. apply Z.lt_le_trans with (2 ^ w); [lia|]. apply Z.pow_le_mono_r; lia.
Qed.

Lemma align_down_spec w x k : 0 <= k < w -> 0 <= x < 2 ^ w -> align_down w x (2 ^ k) = x / 2 ^ k * 2 ^ k.
Proof.
  intros Hk Hx. unfold align_down, trunc. assert (P : 0 < 2 ^ k) by (apply Z.pow_pos_nonneg; lia).
  assert (2 ^ k < 2 ^ w) by (apply Z.pow_lt_mono_r; lia).
  rewrite Z.mod_small by lia. apply land_compl_mask; lia.
Qed.
Lemma align_up_spec w x k : 0 <= k < w -> 0 <= x -> x + 2 ^ k <= 2 ^ w ->
  align_up w x (2 ^ k) = (x + 2 ^ k - 1) / 2 ^ k * 2 ^ k.
Proof.
  intros Hk Hx Hb. unfold align_up, trunc. assert (P : 0 < 2 ^ k) by (apply Z.pow_pos_nonneg; lia).
  assert (2 ^ k < 2 ^ w) by (apply Z.pow_lt_mono_r; lia).
  rewrite (Z.mod_small (2 ^ k - 1)) by lia.
  replace (((x + 2 ^ k) mod 2 ^ w - 1) mod 2 ^ w) with (x + 2 ^ k - 1).
  - apply land_compl_mask; lia.
  - destruct (Z.eq_dec (x + 2 ^ k) (2 ^ w)) as [E|E].
    + rewrite E, Z.mod_same by lia. apply Z.mod_unique_pos with (q := -1); lia.
    + rewrite (Z.mod_small (x + 2 ^ k)) by lia. rewrite Z.mod_small by lia. reflexivity.
Qed.

Lemma clz_spec : forall w v, 0 < v < 2 ^ Z.of_nat w -> clz_loop w v = Z.of_nat w - 1 - Z.log2 v.
Proof.
  induction w as [|w IH]; intros v Hv; [cbn in Hv; lia|]. cbn [clz_loop]. rewrite pow2_S in Hv.
  destruct (Z_lt_le_dec v (2 ^ Z.of_nat w)) as [L|G].
  - assert (Z.log2 v < Z.of_nat w) by (apply Z.log2_lt_pow2; lia).
    rewrite Z.bits_above_log2 by lia. rewrite IH by lia. lia.
  - assert (E : Z.log2 v = Z.of_nat w) by (apply Z.log2_unique; [lia|rewrite Z.pow_succ_r by lia; lia]).
    rewrite <- E at 1. rewrite Z.bit_log2 by lia. lia.
Qed.
Lemma log2_floor_spec w n : 0 < n < 2 ^ Z.of_nat w -> log2_floor w n = Z.log2 n.
Proof.
  intros Hn. unfold log2_floor, count_leading_zero_bits. replace (n =? 0) with false by lia.
  rewrite clz_spec by auto. lia.
Qed.
Lemma log2_ceiling_spec w n : 0 < n < 2 ^ Z.of_nat w -> log2_ceiling w n = Z.log2_up n.
Proof.
  intros Hn. unfold log2_ceiling, count_leading_zero_bits, trunc. replace (n =? 0) with false by lia.
  rewrite Z.mod_small by lia. destruct (n - 1 =? 0) eqn:E.
  - replace n with 1 by lia. rewrite Z.log2_up_1. lia.
  - rewrite clz_spec by lia. rewrite Z.log2_up_eqn by lia. rewrite <- Z.sub_1_r. lia.
Qed.
Lemma log2_ceiling_0 w : (0 < w)%nat -> log2_ceiling w 0 = -1.
Proof.
  intros Hw. unfold log2_ceiling, count_leading_zero_bits, trunc. cbn [Z.eqb].
  pose proof (pow2_pos' w). assert (2 <= 2 ^ Z.of_nat w).
  { change 2 with (2 ^ 1) at 1. apply Z.pow_le_mono_r; lia. }
  replace ((0 - 1) mod 2 ^ Z.of_nat w) with (2 ^ Z.of_nat w - 1) by (apply Z.mod_unique_pos with (q := -1); lia).
  replace (_ =? 0) with false by lia. rewrite clz_spec by lia.
  rewrite (Z.log2_unique (2 ^ Z.of_nat w - 1) (Z.of_nat w - 1)); [lia|lia|].
  replace (Z.succ (Z.of_nat w - 1)) with (Z.of_nat w) by lia.
  replace (2 ^ Z.of_nat w) with (2 * 2 ^ (Z.of_nat w - 1)) in *.
  2: { rewrite <- Z.pow_succ_r by lia. f_equal. lia. }
  lia.
Qed.
Lemma ctz_spec : forall w k, 0 <= k < Z.of_nat w -> ctz_loop w (2 ^ k) = k.
Proof.
  induction w as [|w IH]; intros k Hk; [lia|]. cbn [ctz_loop].
  destruct (Z.eq_dec k 0) as [->|Hn]; [reflexivity|].
  rewrite Z.odd_pow by lia. cbn [Z.odd]. 
  replace (2 ^ k / 2) with (2 ^ (k - 1)). { rewrite IH by lia. lia. }
  replace k with (1 + (k - 1)) at 2 by lia. rewrite Z.pow_add_r by lia. change (2 ^ 1) with 2.
  rewrite Z.mul_comm, Z.div_mul by lia. reflexivity.
Qed.
Lemma checked_log2_spec w n : 0 <= n < 2 ^ Z.of_nat w ->
  checked_log2 w n = if is_power_of_two n then Some (Z.log2 n) else None.
Proof.
  intros Hn. unfold checked_log2. destruct (is_power_of_two n) eqn:E; [|reflexivity].
  apply is_power_of_two_spec in E. destruct E as (k & Hk & ->). f_equal.
  unfold count_trailing_zero_bits. pose proof (Z.pow_pos_nonneg 2 k).
  replace (2 ^ k =? 0) with false by lia. rewrite Z.log2_pow2 by lia. apply ctz_spec.
  split; [lia|]. apply (Z.pow_lt_mono_r_iff 2); lia.
Qed.
