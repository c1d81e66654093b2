(** Tonelli-Shanks, Shanks, Euler's criterion over any field whose non-zero elements have order dividing 2^s T. *)
From Coq Require Import ZArith List Bool Arith Lia Ring Field Field_theory.
From Verif Require Import Field BigIntModel BigIntSpec SemigroupModel SemigroupSpec SemigroupProof SemigroupExtra FFTSpec FFTProof5 SqrtModel SqrtSpec.
Import ListNotations.

Section TS.
  Variable K : fld.
  Add Field Ksq1 : (fld_theory K).
  Open Scope fld_scope.

  Lemma pow_limbs n e (x : K) : limbs64 n e -> do_pow (1 : K) fmul (fun y => y * y) e x = x ^ Z.to_nat (val64 e).
  Proof. intros He. rewrite (do_pow_spec _ _ _ (fld_monoid K) (fun x => eq_refl) n) by exact He. apply times_fpow. Qed.
  Lemma pow2_S k : (2 ^ S k = 2 ^ k * 2)%nat. Proof. rewrite Nat.pow_succ_r'. lia. Qed.
  Lemma fpow_2 (x : K) : x ^ 2 = x * x. Proof. cbn [fpow]. ring. Qed.
  Lemma sq_one (x : K) : x * x = 1 -> x = 1 \/ x = - (1).
  Proof.
    intros E. assert (E2 : (x - 1) * (x + 1) = 0) by (transitivity (x * x - 1); [ring|rewrite E; ring]).
    apply fmul_integral in E2. destruct E2 as [E2|E2]; [left; apply (proj1 (fsub_eq0 K _ _)); exact E2|right].
    transitivity ((x + 1) - 1); [ring|rewrite E2; ring].
  Qed.

  Lemma order_log_spec : forall m fuel (b : K) k0, (m <= fuel)%nat -> b ^ (2 ^ m) = 1 ->
    exists k, (k <= m)%nat /\ order_log fuel b k0 = Some (k0 + k)%nat /\ b ^ (2 ^ k) = 1 /\ ((0 < k)%nat -> b ^ (2 ^ (k - 1)) <> 1).
  Proof.
    induction m as [|m IH]; intros fuel b k0 Hf Hb.
    - cbn [Nat.pow] in Hb. rewrite fpow_1 in Hb. subst b. exists 0%nat. split; [lia|]. rewrite Nat.add_0_r.
      split; [destruct fuel; cbn [order_log]; rewrite feqb_refl; reflexivity|]. split; [apply fpow_one|lia].
    - destruct (feqb b 1) eqn:E.
      + apply feqb_eq in E. subst b. exists 0%nat. split; [lia|]. rewrite Nat.add_0_r.
        split; [destruct fuel; cbn [order_log]; rewrite feqb_refl; reflexivity|]. split; [apply fpow_one|lia].
      + destruct fuel as [|f]; [lia|]. destruct (IH f (b * b) (S k0)) as (k & Hk & E1 & E2 & E3); [lia| |].
        { rewrite pow2_S, Nat.mul_comm, fpow_mul, fpow_2 in Hb. exact Hb. }
        exists (S k). split; [lia|]. cbn [order_log]. rewrite E, E1. split; [f_equal; lia|].
        split; [rewrite pow2_S, Nat.mul_comm, fpow_mul, fpow_2; exact E2|].
        intros _. replace (S k - 1)%nat with k by lia. destruct k as [|k].
        * cbn [Nat.pow]. rewrite fpow_1. intros ->. rewrite feqb_refl in E. discriminate.
        * specialize (E3 ltac:(lia)). replace (S k - 1)%nat with k in E3 by lia. rewrite pow2_S, Nat.mul_comm, fpow_mul, fpow_2. exact E3.
  Qed.
  (** A non-trivial element of 2-power order has a power equal to -1. *)
  Lemma order_half (b : K) k : b <> 1 -> b ^ (2 ^ k) = 1 -> ((0 < k)%nat -> b ^ (2 ^ (k - 1)) <> 1) -> (0 < k)%nat /\ b ^ (2 ^ (k - 1)) = - (1).
  Proof.
    intros Hb E N. assert (0 < k)%nat. { destruct k; [|lia]. cbn [Nat.pow] in E. rewrite fpow_1 in E. contradiction. }
    split; [assumption|]. specialize (N H). replace k with (S (k - 1)) in E at 1 by lia. rewrite pow2_S, fpow_mul, fpow_2 in E.
    destruct (sq_one _ E) as [E2|E2]; [contradiction|exact E2].
  Qed.

  Variables (s : nat) (a : K).

  Lemma ts_loop_spec : forall v fuel (z x b : K), (v <= fuel)%nat -> (0 < v <= s)%nat ->
    z ^ (2 ^ (v - 1)) = - (1) -> x * x = a * b -> b <> 1 -> b ^ (2 ^ (v - 1)) = 1 ->
    exists x', ts_loop fuel s z x b v = Some (Some x') /\ x' * x' = a.
  Proof.
    induction v as [v IH] using lt_wf_ind. intros fuel z x b Hf Hv Hz Hx Hb Hb2.
    destruct fuel as [|f]; [lia|]. cbn [ts_loop].
    destruct (order_log_spec (v - 1) (S f) b 0 ltac:(lia) Hb2) as (k & Hk & E & E1 & E2). rewrite E. rewrite Nat.add_0_l.
    destruct (order_half b k Hb E1 E2) as [K0 EM].
    destruct (Nat.eqb_spec k s); [lia|]. rewrite iter_square. set (w := z ^ (2 ^ (v - k - 1))).
    assert (EZ : (w * w) ^ (2 ^ (k - 1)) = - (1)).
    { unfold w. rewrite <- fpow_add, <- fpow_mul. rewrite <- Hz. f_equal.
      replace (2 ^ (v - k - 1) + 2 ^ (v - k - 1))%nat with (2 ^ (S (v - k - 1)))%nat by (rewrite pow2_S; lia).
      rewrite <- Nat.pow_add_r. f_equal. lia. }
    assert (EX : (x * w) * (x * w) = a * (b * (w * w))).
    { transitivity ((x * x) * (w * w)); [ring|]. rewrite Hx. ring. }
    assert (EB : (b * (w * w)) ^ (2 ^ (k - 1)) = 1).
    { rewrite fpow_mul_base, EM, EZ. ring. }
    destruct (feqb (b * (w * w)) 1) eqn:EQ.
    - apply feqb_eq in EQ. exists (x * w). split; [reflexivity|]. rewrite EX, EQ. ring.
    - apply (IH k); try assumption; try lia. intros E'. rewrite E', feqb_refl in EQ. discriminate.
  Qed.

  Variables (T : nat).
  Hypothesis Hferm : forall y : K, y <> 0 -> y ^ (2 ^ s * (2 * T + 1)) = 1.
  Hypothesis Hs : (0 < s)%nat.
  Hypothesis Hm1 : (1 : K) <> - (1).

  Lemma euler_only_if (y : K) : y <> 0 -> is_square y -> y ^ (2 ^ (s - 1) * (2 * T + 1)) = 1.
  Proof.
    intros Hy [r <-]. rewrite <- fpow_2, <- fpow_mul.
    replace (2 * (2 ^ (s - 1) * (2 * T + 1)))%nat with (2 ^ s * (2 * T + 1))%nat.
    - apply Hferm. intros ->. apply Hy. ring.
    - replace s with (S (s - 1)) at 1 by lia. rewrite pow2_S. lia.
  Qed.

  Lemma tonelli_spec n e (root : K) fuel : limbs64 n e -> val64 e = Z.of_nat T -> root ^ (2 ^ (s - 1)) = - (1) -> (s <= fuel)%nat ->
    exists r, tonelli_shanks fuel s e root a = Some r /\ match r with Some x => x * x = a | None => ~ is_square a end.
  Proof.
    intros He Ve Hr Hf. unfold tonelli_shanks. destruct (feqb a 0) eqn:E0.
    { apply feqb_eq in E0. exists (Some 0). split; [reflexivity|]. rewrite E0. ring. }
    assert (Ha : a <> 0) by (intros ->; rewrite feqb_refl in E0; discriminate).
    rewrite (pow_limbs n) by exact He. rewrite Ve, Nat2Z.id. set (w := a ^ T).
    assert (EB : w * a * w = a ^ (2 * T + 1)).
    { unfold w. replace (2 * T + 1)%nat with (T + S T)%nat by lia. rewrite fpow_add. cbn [fpow]. ring. }
    assert (EX : (w * a) * (w * a) = a * (w * a * w)) by ring.
    rewrite EB in *. set (b := a ^ (2 * T + 1)) in *.
    assert (FIN : forall x, x * x = a -> exists r, (if feqb (x * x) a then Some (Some x) else Some None) = Some r /\
      match r with Some x => x * x = a | None => ~ is_square a end).
    { intros x E. exists (Some x). rewrite E, feqb_refl. auto. }
    destruct (feqb b 1) eqn:EQ.
    { apply feqb_eq in EQ. rewrite EQ in EX. apply FIN. rewrite EX. ring. }
    assert (Nb : b <> 1) by (intros E; rewrite E, feqb_refl in EQ; discriminate).
    destruct (feqb (b ^ (2 ^ (s - 1))) 1) eqn:EH.
    - apply feqb_eq in EH. destruct (ts_loop_spec s fuel root (w * a) b) as (x' & E & Ex); auto. rewrite E. apply FIN. exact Ex.
    - assert (NH : b ^ (2 ^ (s - 1)) <> 1) by (intros E; rewrite E, feqb_refl in EH; discriminate).
      exists None. split.
      + destruct fuel as [|f]; [lia|]. cbn [ts_loop].
        destruct (order_log_spec s (S f) b 0 Hf) as (k & Hk & E & E1 & E2).
        { unfold b. rewrite <- fpow_mul, Nat.mul_comm. apply Hferm. exact Ha. }
        rewrite E, Nat.add_0_l. destruct (Nat.eqb_spec k s); [reflexivity|]. exfalso. apply NH.
        replace (2 ^ (s - 1))%nat with (2 ^ k * 2 ^ (s - 1 - k))%nat by (rewrite <- Nat.pow_add_r; f_equal; lia).
        rewrite fpow_mul, E1. apply fpow_one.
      + intros HS. apply NH. unfold b. rewrite <- fpow_mul, Nat.mul_comm. apply euler_only_if; assumption.
  Qed.

  (** With a zero root (Init has not run) or a root 1, the loop never ends on most squares. *)
  Lemma neqb (x y : K) : x <> y -> feqb x y = false.
  Proof. intros N. destruct (feqb x y) eqn:E; [apply feqb_eq in E; contradiction|reflexivity]. Qed.
  Lemma order_log_zero : forall fuel k, order_log fuel (0 : K) k = None.
  Proof.
    assert (N : (0 : K) <> 1) by (intros E; apply (f1_neq_0 K); auto).
    induction fuel as [|f IH]; intros k; cbn [order_log]; rewrite (neqb _ _ N); [reflexivity|].
    replace (0 * 0 : K) with (0 : K) by ring. apply IH.
  Qed.
  Lemma order_log_le : forall fuel (b : K) m k0 k, b ^ (2 ^ m) = 1 -> order_log fuel b k0 = Some k -> (k <= k0 + m)%nat.
  Proof.
    induction fuel as [|f IH]; intros b m k0 k Hb E; cbn [order_log] in E.
    - destruct (feqb b 1); [injection E as <-; lia|discriminate].
    - destruct (feqb b 1) eqn:EQ; [injection E as <-; lia|]. destruct m as [|m].
      + cbn [Nat.pow] in Hb. rewrite fpow_1 in Hb. rewrite Hb, feqb_refl in EQ. discriminate.
      + apply (IH _ m) in E; [lia|]. rewrite pow2_S, Nat.mul_comm, fpow_mul, fpow_2 in Hb. exact Hb.
  Qed.
  Lemma iter_sq_fix (c : K) m : c * c = c -> Nat.iter m (fun y => y * y) c = c.
  Proof. intros E. induction m; [reflexivity|]. cbn [Nat.iter nat_rect]. fold (Nat.iter m (fun y : K => y * y) c). rewrite IHm. exact E. Qed.
  Lemma ts_zero fuel v (x b : K) : b ^ (2 ^ (s - 1)) = 1 -> ts_loop fuel s 0 x b v = None.
  Proof.
    intros B2. destruct fuel as [|f]; [reflexivity|]. cbn [ts_loop].
    destruct (order_log (S f) b 0) as [k|] eqn:E; [|reflexivity]. apply (order_log_le _ _ (s - 1)) in E; [|exact B2].
    destruct (Nat.eqb_spec k s); [lia|]. rewrite iter_sq_fix by ring.
    replace (0 * 0 : K) with (0 : K) by ring. replace (b * 0 : K) with (0 : K) by ring.
    rewrite neqb by (intros E'; apply (f1_neq_0 K); auto).
    destruct f as [|f]; [reflexivity|]. cbn [ts_loop]. rewrite order_log_zero. reflexivity.
  Qed.
  Lemma ts_one : forall fuel v (x b : K), b <> 1 -> b ^ (2 ^ (s - 1)) = 1 -> ts_loop fuel s 1 x b v = None.
  Proof.
    induction fuel as [|f IH]; intros v x b Nb B2; [reflexivity|]. cbn [ts_loop].
    destruct (order_log (S f) b 0) as [k|] eqn:E; [|reflexivity]. apply (order_log_le _ _ (s - 1)) in E; [|exact B2].
    destruct (Nat.eqb_spec k s); [lia|]. rewrite iter_sq_fix by ring.
    replace (1 * 1 : K) with (1 : K) by ring. replace (b * 1 : K) with b by ring.
    rewrite neqb by exact Nb. apply IH; assumption.
  Qed.
  (** Neither 0 nor 1 will do as the root: the search does not end on any square whose T-th power is not 1. *)
  Lemma tonelli_stuck n e (root : K) fuel : limbs64 n e -> val64 e = Z.of_nat T -> root = 0 \/ root = 1 -> is_square a -> a <> 0 -> a ^ (2 * T + 1) <> 1 ->
    tonelli_shanks fuel s e root a = None.
  Proof.
    intros He Ve Hr HS Ha Nb. unfold tonelli_shanks. rewrite (neqb a 0) by exact Ha.
    rewrite (pow_limbs n) by exact He. rewrite Ve, Nat2Z.id. set (w := a ^ T).
    assert (EB : w * a * w = a ^ (2 * T + 1)).
    { unfold w. replace (2 * T + 1)%nat with (T + S T)%nat by lia. rewrite fpow_add. cbn [fpow]. ring. }
    rewrite EB. rewrite neqb by exact Nb.
    assert (B2 : (a ^ (2 * T + 1)) ^ (2 ^ (s - 1)) = 1). { rewrite <- fpow_mul, Nat.mul_comm. apply euler_only_if; assumption. }
    destruct Hr as [-> | ->]; [rewrite ts_zero by exact B2|rewrite ts_one by assumption]; reflexivity.
  Qed.
  (** Euler's criterion. *)
  Lemma euler (root : K) : root ^ (2 ^ (s - 1)) = - (1) -> a <> 0 -> a ^ (2 ^ (s - 1) * (2 * T + 1)) = 1 <-> is_square a.
  Proof.
    intros Hr Ha. split; [|apply euler_only_if; exact Ha]. intros E.
    set (x := a ^ S T). set (b := a ^ (2 * T + 1)).
    assert (EX : x * x = a * b). { unfold x, b. rewrite <- fpow_add. replace (S T + S T)%nat with (S (2 * T + 1)) by lia. reflexivity. }
    destruct (feqb b 1) eqn:EQ.
    - apply feqb_eq in EQ. exists x. rewrite EX, EQ. ring.
    - destruct (ts_loop_spec s s root x b) as (y & _ & Ey); auto; try lia.
      + intros E'. rewrite E', feqb_refl in EQ. discriminate.
      + unfold b. rewrite <- fpow_mul, Nat.mul_comm. exact E.
      + exists y. exact Ey.
  Qed.
End TS.
