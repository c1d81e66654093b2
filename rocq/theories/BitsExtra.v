(** Corollaries of the bits.h proofs in the form the properties use. *)
From Coq Require Import ZArith List Bool Lia.
From Coq Require Import ZifyBool ZifyNat.
From Verif Require Import BigIntModel BitsModel BitsSpec BitsProof.
Open Scope Z_scope.

Lemma is_pow2 v : is_power_of_two v = true <-> exists k, 0 <= k /\ v = 2 ^ k.
Proof. apply is_power_of_two_spec. Qed.
Lemma align_down_nearest w x k : 0 <= k < w -> 0 <= x < 2 ^ w ->
  let r := align_down w x (2 ^ k) in (2 ^ k | r) /\ r <= x < r + 2 ^ k.
Proof.
  intros Hk Hx. cbv zeta. rewrite align_down_spec by lia. assert (P : 0 < 2 ^ k) by (apply Z.pow_pos_nonneg; lia).
  split; [exists (x / 2 ^ k); reflexivity|].
  pose proof (Z.div_mod x (2 ^ k) ltac:(lia)). pose proof (Z.mod_pos_bound x (2 ^ k) P). lia.
Qed.
Lemma align_up_nearest w x k : 0 <= k < w -> 0 <= x -> x + 2 ^ k <= 2 ^ w ->
  let r := align_up w x (2 ^ k) in (2 ^ k | r) /\ r - 2 ^ k < x <= r.
Proof.
  intros Hk Hx Hb. cbv zeta. rewrite align_up_spec by lia. assert (P : 0 < 2 ^ k) by (apply Z.pow_pos_nonneg; lia).
  set (y := x + 2 ^ k - 1). split; [exists (y / 2 ^ k); reflexivity|].
  pose proof (Z.div_mod y (2 ^ k) ltac:(lia)). pose proof (Z.mod_pos_bound y (2 ^ k) P). lia.
Qed.
Lemma floor_bounds w n : 0 < n < 2 ^ Z.of_nat w -> 2 ^ log2_floor w n <= n < 2 ^ (log2_floor w n + 1).
Proof. intros Hn. rewrite log2_floor_spec by auto. apply Z.log2_spec. lia. Qed.
Lemma ceiling_bounds w n : 0 < n < 2 ^ Z.of_nat w ->
  0 <= log2_ceiling w n /\ n <= 2 ^ log2_ceiling w n /\ (1 < n -> 2 ^ (log2_ceiling w n - 1) < n).
Proof.
  intros Hn. rewrite log2_ceiling_spec by auto. split; [apply Z.log2_up_nonneg|]. split.
  - destruct (Z.eq_dec n 1) as [->|]; [cbn; lia|]. apply Z.log2_up_spec. lia.
  - intros H1. apply Z.log2_up_spec in H1. rewrite Z.sub_1_r. apply H1.
Qed.
Lemma log2_zero w : (0 < w)%nat -> log2_floor w 0 = -1 /\ log2_ceiling w 0 = -1 /\ safe_log2_ceiling w 0 = 0.
Proof.
  intros Hw. rewrite log2_ceiling_0 by auto. unfold safe_log2_ceiling. rewrite log2_ceiling_0 by auto.
  split; [|split; reflexivity]. unfold log2_floor, count_leading_zero_bits. cbn [Z.eqb]. lia.
Qed.
Lemma checked_exact w n : 0 <= n < 2 ^ Z.of_nat w ->
  match checked_log2 w n with
  | Some k => 0 <= k /\ n = 2 ^ k
  | None => ~ exists k, 0 <= k /\ n = 2 ^ k
  end.
Proof.
  intros Hn. rewrite checked_log2_spec by auto. destruct (is_power_of_two n) eqn:E.
  - apply is_power_of_two_spec in E. destruct E as (k & Hk & ->). rewrite Z.log2_pow2 by lia. auto.
  - rewrite <- is_power_of_two_spec. congruence.
Qed.
Lemma reverse_mirror k x : (0 < k <= 64)%nat -> 0 <= x < 2 ^ Z.of_nat k ->
  exists r, reverse_bits_len x (Z.of_nat k) = Some r /\ 0 <= r < 2 ^ Z.of_nat k /\
    (forall i, 0 <= i < Z.of_nat k -> Z.testbit r i = Z.testbit x (Z.of_nat k - 1 - i)) /\
    reverse_bits_len r (Z.of_nat k) = Some x.
Proof.
  intros Hk Hx. exists (rev_bits k x). pose proof (rev_bits_range k x ltac:(lia)).
  split; [apply reverse_bits_len_spec; auto|]. split; [auto|]. split.
  - intros. apply rev_bits_testbit; lia.
  - rewrite reverse_bits_len_spec by auto. rewrite rev_bits_involutive by auto. reflexivity.
Qed.
Lemma reverse_zero x : reverse_bits_len x 0 = None. Proof. reflexivity. Qed.
