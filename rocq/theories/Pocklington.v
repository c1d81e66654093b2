(** Pocklington's primality criterion for a factored part r1^e1 * r2^e2 of p - 1, used to show that the
    moduli of the small fields are prime. *)
From Coq Require Import ZArith List Bool Lia Znumtheory Zpow_facts.
From Coq Require Import ZifyBool ZifyNat.
From Verif Require Import Field Zp.
Import ListNotations.
Open Scope Z_scope.

Lemma nonneg_bezout A B g u0 v0 : 0 < A -> 0 < B -> u0 * A + v0 * B = g ->
  exists u v, 0 <= u /\ 0 <= v /\ g + B * v = A * u.
Proof.
  intros HA HB E. exists (u0 + (Z.abs u0 + Z.abs v0) * B), ((Z.abs u0 + Z.abs v0) * A - v0).
  assert (K1 : Z.abs u0 + Z.abs v0 <= (Z.abs u0 + Z.abs v0) * B) by (rewrite <- (Z.mul_1_r (Z.abs u0 + Z.abs v0)) at 1; apply Z.mul_le_mono_nonneg_l; lia).
  assert (K2 : Z.abs u0 + Z.abs v0 <= (Z.abs u0 + Z.abs v0) * A) by (rewrite <- (Z.mul_1_r (Z.abs u0 + Z.abs v0)) at 1; apply Z.mul_le_mono_nonneg_l; lia).
  split; [lia|]. split; [lia|]. rewrite <- E. ring.
Qed.
Lemma pow_mod_one q c X n : 1 < q -> 0 <= X -> 0 <= n -> c ^ X mod q = 1 -> c ^ (X * n) mod q = 1.
Proof.
  intros Hq HX Hn EX. rewrite Z.pow_mul_r by assumption. rewrite Zpower_mod, EX by lia.
  rewrite Z.pow_1_l by assumption. apply Z.mod_small. lia.
Qed.
Lemma pow_gcd q c A B : 1 < q -> 0 < A -> 0 < B -> c ^ A mod q = 1 -> c ^ B mod q = 1 -> c ^ Z.gcd A B mod q = 1.
Proof.
  intros Hq HA HB EA EB. destruct (Z.gcd_bezout A B (Z.gcd A B) eq_refl) as (u0 & v0 & E).
  destruct (nonneg_bezout A B _ u0 v0 HA HB E) as (u & v & Hu & Hv & E2).
  pose proof (pow_mod_one q c A u Hq ltac:(lia) Hu EA) as E3. rewrite <- E2 in E3.
  pose proof (pow_mod_one q c B v Hq ltac:(lia) Hv EB) as E4.
  rewrite Z.pow_add_r in E3; [|apply Z.gcd_nonneg|apply Z.mul_nonneg_nonneg; lia].
  rewrite <- Z.mul_mod_idemp_r in E3 by lia. rewrite E4, Z.mul_1_r in E3. exact E3.
Qed.

Lemma prime_power_divisor r e g : prime r -> 0 < e -> 0 < g -> (g | r ^ e) -> g <> r ^ e -> (g | r ^ (e - 1)).
Proof.
  intros Hr He Hg [h E] Hne. pose proof (prime_ge_2 r Hr) as R2.
  assert (Hp : 0 < r ^ e) by (apply Z.pow_pos_nonneg; lia).
  assert (Hh : 1 < h).
  { assert (Hh0 : 0 < h) by (apply (Z.mul_pos_cancel_r h g); lia). assert (h <> 1) by (intros ->; lia). lia. }
  destruct (Zdivide_dec r h) as [[k Ek]|N].
  - exists k. apply Z.mul_cancel_l with (p := r); [lia|]. rewrite <- Z.pow_succ_r by lia.
    replace (Z.succ (e - 1)) with e by lia. rewrite E, Ek. ring.
  - exfalso. assert (C : rel_prime h (r ^ e)).
    { apply rel_prime_Zpower_r; [lia|]. apply rel_prime_sym. apply prime_rel_prime; auto. }
    assert (D : (h | r ^ e)) by (exists g; lia).
    destruct C as [_ _ C]. specialize (C h (Z.divide_refl h) D). apply Z.divide_1_r in C. lia.
Qed.

Lemma mod_one_divide w q : 0 < q -> w mod q = 1 -> (q | w - 1).
Proof. intros Hq E. exists (w / q). pose proof (Z.div_mod w q ltac:(lia)) as D. rewrite E in D. lia. Qed.

(** One prime power of p - 1 divides q - 1 for every prime divisor q of p. *)
Lemma pock_step p q r e a : prime q -> (q | p) -> 1 < p -> prime r -> 0 < e -> (r ^ e | p - 1) ->
  a ^ (p - 1) mod p = 1 -> Z.gcd (a ^ ((p - 1) / r) - 1) p = 1 -> (r ^ e | q - 1).
Proof.
  intros Hq Dq Hp Hr He [m Em] EA EG. pose proof (prime_ge_2 r Hr) as R2. pose proof (prime_ge_2 q Hq) as Q2.
  assert (HR : 0 < r ^ e) by (apply Z.pow_pos_nonneg; lia). assert (Hm : 0 < m) by nia.
  set (c := a ^ m).
  assert (E1 : c ^ (r ^ e) mod q = 1).
  { unfold c. rewrite <- Z.pow_mul_r by lia. rewrite <- Em. rewrite (Zmod_div_mod q p) by (auto; lia).
    rewrite EA. apply Z.mod_small. lia. }
  assert (E2 : c ^ (r ^ (e - 1)) mod q <> 1).
  { unfold c. rewrite <- Z.pow_mul_r by (try apply Z.pow_nonneg; lia).
    replace (m * r ^ (e - 1)) with ((p - 1) / r).
    2: { rewrite Em. replace e with (Z.succ (e - 1)) at 1 by lia. rewrite Z.pow_succ_r by lia.
         replace (m * (r * r ^ (e - 1))) with (m * r ^ (e - 1) * r) by ring. apply Z.div_mul. lia. }
    intros E. set (w := a ^ ((p - 1) / r)) in *. assert (D : (q | w - 1)) by (apply mod_one_divide; [lia|exact E]).
    assert (D2 : (q | Z.gcd (w - 1) p)) by (apply Z.gcd_greatest; assumption).
    rewrite EG in D2. apply Z.divide_1_r in D2. lia. }
  assert (N : c mod q <> 0).
  { intros E. rewrite Zpower_mod, E in E1 by lia. rewrite Z.pow_0_l in E1 by lia. rewrite Z.mod_0_l in E1; lia. }
  assert (E3 : c ^ (q - 1) mod q = 1).
  { rewrite Zpower_mod by lia. apply fermat; [exact Hq|]. pose proof (Z.mod_pos_bound c q ltac:(lia)). lia. }
  pose proof (pow_gcd q c (r ^ e) (q - 1) ltac:(lia) HR ltac:(lia) E1 E3) as E4.
  set (g := Z.gcd (r ^ e) (q - 1)) in *.
  assert (Hg : 0 < g). { pose proof (Z.gcd_nonneg (r ^ e) (q - 1)). destruct (Z.eq_dec g 0) as [Z0|]; [|unfold g in *; lia]. apply Z.gcd_eq_0_l in Z0. lia. }
  destruct (Z.eq_dec g (r ^ e)) as [Eg|Ng]; [rewrite <- Eg; apply Z.gcd_divide_r|exfalso].
  destruct (prime_power_divisor r e g Hr He Hg (Z.gcd_divide_l _ _) Ng) as [k Ek].
  assert (Hk : 0 <= k). { assert (HP : 0 < r ^ (e - 1)) by (apply Z.pow_pos_nonneg; lia).
    rewrite Ek in HP. apply Z.lt_le_incl. exact (proj1 (Z.mul_pos_cancel_r k g Hg) HP). }
  apply E2. rewrite Ek, (Z.mul_comm k g), Z.pow_mul_r by lia. rewrite Zpower_mod, E4 by lia. rewrite Z.pow_1_l by lia.
  apply Z.mod_small. lia.
Qed.

Lemma prime_divisor p : 1 < p -> ~ prime p -> exists q, prime q /\ (q | p) /\ q * q <= p.
Proof.
  intros Hp NP.
  assert (HE : forall n, 1 < n -> exists q, prime q /\ (q | n)).
  { intros n Hn. assert (H0 : 0 <= n) by lia. revert Hn. pattern n. apply Z_lt_induction; [|exact H0]. clear n H0. intros n IH Hn. destruct (prime_dec n) as [P|N]; [exists n; split; [exact P|apply Z.divide_refl]|].
    apply not_prime_divide in N; [|lia]. destruct N as (d & Hd & D). destruct (IH d ltac:(lia) ltac:(lia)) as (q & Pq & Dq).
    exists q. split; [exact Pq|]. eapply Z.divide_trans; eassumption. }
  apply not_prime_divide in NP; [|lia]. destruct NP as (d & Hd & [h E]).
  assert (Hh : 1 < h) by nia.
  destruct (Z_le_gt_dec (d * d) p) as [L|G].
  - destruct (HE d ltac:(lia)) as (q & Pq & Dq). exists q. split; [exact Pq|]. split; [eapply Z.divide_trans; [exact Dq|exists h; exact E]|].
    pose proof (Z.divide_pos_le q d ltac:(lia) Dq). pose proof (prime_ge_2 q Pq). nia.
  - destruct (HE h ltac:(lia)) as (q & Pq & Dq). exists q. split; [exact Pq|].
    split; [eapply Z.divide_trans; [exact Dq|exists d; rewrite E; ring]|].
    pose proof (Z.divide_pos_le q h ltac:(lia) Dq). pose proof (prime_ge_2 q Pq).
    assert (h < d) by (apply (Z.mul_lt_mono_pos_r d); lia).
    transitivity (h * h); [apply Z.mul_le_mono_nonneg; lia|rewrite E; apply Z.mul_le_mono_nonneg_l; lia].
Qed.

Definition pock_check (p r e a : Z) : bool :=
  (0 <? e) && ((p - 1) mod (r ^ e) =? 0) && (Zpow_mod a (p - 1) p =? 1) && (Z.gcd (Zpow_mod a ((p - 1) / r) p - 1) p =? 1).
Lemma gcd_mod_sub x p : 1 < p -> Z.gcd (x mod p - 1) p = Z.gcd (x - 1) p.
Proof.
  intros Hp. rewrite (Z.gcd_comm (x - 1)), (Z.gcd_comm _ p). pose proof (Z.div_mod x p ltac:(lia)) as D.
  replace (x - 1) with (x mod p - 1 + (x / p) * p) by lia. symmetry. apply Z.gcd_add_mult_diag_r.
Qed.
Lemma pock_check_sound p q r e a : 1 < p -> prime r -> pock_check p r e a = true -> prime q -> (q | p) -> (r ^ e | q - 1).
Proof.
  unfold pock_check. intros Hp Hr H Hq Dq. rewrite !andb_true_iff in H. destruct H as [[[H1 H2] H3] H4].
  rewrite Zpow_mod_correct in H3, H4 by lia.
  assert (He : 0 < e) by lia. pose proof (prime_ge_2 r Hr).
  assert (HR : 0 < r ^ e) by (apply Z.pow_pos_nonneg; lia).
  apply (pock_step p q r e a); auto.
  - apply Z.mod_divide; lia.
  - lia.
  - rewrite <- gcd_mod_sub by lia. lia.
Qed.
Lemma pocklington1 p r e a : 1 < p -> prime r -> p < r ^ e * r ^ e -> pock_check p r e a = true -> prime p.
Proof.
  intros Hp Hr HF H. destruct (prime_dec p) as [P|NP]; [exact P|exfalso].
  destruct (prime_divisor p Hp NP) as (q & Pq & Dq & Hqq). pose proof (prime_ge_2 q Pq).
  pose proof (pock_check_sound p q r e a Hp Hr H Pq Dq) as D. apply Z.divide_pos_le in D; [|lia].
  assert (0 < r ^ e). { apply Z.pow_pos_nonneg; [pose proof (prime_ge_2 r Hr); lia|]. unfold pock_check in H. rewrite !andb_true_iff in H. lia. }
  nia.
Qed.
Lemma pocklington2 p r1 e1 r2 e2 a : 1 < p -> prime r1 -> prime r2 -> r1 <> r2 -> p < (r1 ^ e1 * r2 ^ e2) * (r1 ^ e1 * r2 ^ e2) ->
  pock_check p r1 e1 a = true -> pock_check p r2 e2 a = true -> prime p.
Proof.
  intros Hp Hr1 Hr2 Hne HF H1 H2. destruct (prime_dec p) as [P|NP]; [exact P|exfalso].
  destruct (prime_divisor p Hp NP) as (q & Pq & Dq & Hqq). pose proof (prime_ge_2 q Pq).
  pose proof (pock_check_sound p q r1 e1 a Hp Hr1 H1 Pq Dq) as D1.
  pose proof (pock_check_sound p q r2 e2 a Hp Hr2 H2 Pq Dq) as D2.
  assert (E1 : 0 < e1) by (unfold pock_check in H1; rewrite !andb_true_iff in H1; lia).
  assert (E2 : 0 < e2) by (unfold pock_check in H2; rewrite !andb_true_iff in H2; lia).
  pose proof (prime_ge_2 r1 Hr1). pose proof (prime_ge_2 r2 Hr2).
  assert (HP1 : 0 < r1 ^ e1) by (apply Z.pow_pos_nonneg; lia). assert (HP2 : 0 < r2 ^ e2) by (apply Z.pow_pos_nonneg; lia).
  assert (C : rel_prime (r2 ^ e2) (r1 ^ e1)).
  { apply rel_prime_Zpower_r; [lia|]. apply rel_prime_sym. apply rel_prime_Zpower_r; [lia|].
    apply prime_rel_prime; [exact Hr1|]. intros D. apply prime_div_prime in D; auto. }
  assert (D : (r1 ^ e1 * r2 ^ e2 | q - 1)).
  { destruct D1 as [k Ek]. rewrite Ek in D2. rewrite Z.mul_comm in D2.
    apply Gauss in D2; [|exact C]. destruct D2 as [j Ej]. exists j. rewrite Ek, Ej. ring. }
  apply Z.divide_pos_le in D; [|lia]. assert (0 < r1 ^ e1 * r2 ^ e2) by nia. nia.
Qed.

(** finite_fields/{mersenne31,baby_bear,koala_bear,goldilocks}: the moduli in the BUILD.bazel files. *)
Lemma mersenne31_prime : prime 2147483647.
Proof.
  apply (pocklington2 _ 331 1 151 1 7); [lia| | |lia|lia| | ]; [apply prime_check_sound|apply prime_check_sound| | ]; vm_compute; reflexivity.
Qed.
Lemma baby_bear_prime : prime 2013265921.
Proof. apply (pocklington1 _ 2 27 31); [lia|apply prime_2|lia|vm_compute; reflexivity]. Qed.
Lemma koala_bear_prime : prime 2130706433.
Proof. apply (pocklington1 _ 2 24 3); [lia|apply prime_2|lia|vm_compute; reflexivity]. Qed.
Lemma goldilocks_prime : prime 18446744069414584321.
Proof. apply (pocklington1 _ 2 32 7); [lia|apply prime_2|lia|vm_compute; reflexivity]. Qed.
