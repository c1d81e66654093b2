(** Corollaries used to close the BigInt property theorems. *)
From Coq Require Import ZArith List Bool Lia Znumtheory.
From Coq Require Import ZifyBool ZifyNat.
From Verif Require Import BigIntModel BigIntSpec BigIntProof BigIntProof2 PrimeFieldProof.
Import ListNotations.
Open Scope Z_scope.

Lemma bi_eqb_iff n a b : limbs 64 n a -> limbs 64 n b -> (bi_eqb a b = true <-> a = b).
Proof.
  intros Ha Hb. rewrite (bi_eqb_spec n) by auto. rewrite Z.eqb_eq. split; [|intros ->; reflexivity].
  apply (val_inj 64 n); auto. lia.
Qed.
Lemma from_bits_both n bits : (length bits <= 64 * n)%nat ->
  limbs 64 n (bi_from_bits_le n bits) /\ val 64 (bi_from_bits_le n bits) = bits_val bits /\
  limbs 64 n (bi_from_bits_be n bits) /\ val 64 (bi_from_bits_be n bits) = bits_val (rev bits).
Proof.
  intros H. destruct (from_bits_le_correct n bits H). destruct (from_bits_be_correct n bits H). tauto.
Qed.
Lemma naf_refuted : exists n v ds, limbs 64 n v /\ bi_to_naf v = Some ds /\ digits_val ds <> val 64 v.
Proof.
  exists 1%nat, [2 ^ 64 - 1], [-1]. split; [split; [reflexivity|repeat constructor; lia]|].
  split; [vm_compute; reflexivity|]. vm_compute. discriminate.
Qed.
Lemma montgomery_reduce_mod n m r inv spare : limbs 64 (S n) m -> limbs 64 (2 * S n) r ->
  (inv * hd 0 m) mod 2 ^ 64 = 2 ^ 64 - 1 ->
  (spare = true -> 2 * val 64 m <= 2 ^ (64 * Z.of_nat (S n))) ->
  val 64 r < val 64 m * 2 ^ (64 * Z.of_nat (S n)) ->
  let out := bi_montgomery_reduce spare r m inv in
  limbs 64 (S n) out /\ 0 <= val 64 out < val 64 m /\
  (val 64 out * 2 ^ (64 * Z.of_nat (S n))) mod val 64 m = val 64 r mod val 64 m.
Proof.
  intros. destruct (montgomery_reduce_correct n m r inv spare) as (H4 & H5 & q & E); auto.
  split; [exact H4|]. split; [exact H5|]. fold out in E. rewrite E. apply Z.mod_add. lia.
Qed.
Lemma from_montgomery_mod n m v inv : limbs 64 (S n) m -> limbs 64 (S n) v ->
  (inv * hd 0 m) mod 2 ^ 64 = 2 ^ 64 - 1 -> val 64 v < val 64 m ->
  let out := bi_from_montgomery 64 v m inv in
  limbs 64 (S n) out /\ 0 <= val 64 out < val 64 m /\
  (val 64 out * 2 ^ (64 * Z.of_nat (S n))) mod val 64 m = val 64 v mod val 64 m.
Proof.
  intros. destruct (from_montgomery_correct 64 n m v inv) as (H4 & H5 & q & E); auto; try lia.
  split; [exact H4|]. split; [exact H5|]. fold out in E. rewrite E. apply Z.mod_add. lia.
Qed.
Lemma portable64_inverted a b c :
  0 <= a < 2 ^ 64 -> 0 <= b < 2 ^ 64 -> 0 <= c <= 1 ->
  sub_with_borrow_portable64 a b c = ((a - b - c) mod 2 ^ 64, if a <? b + c then 0 else 1).
Proof.
  intros Ha Hb Hc. unfold sub_with_borrow_portable64, trunc. cbv zeta.
  rewrite (Z.mod_small _ (2 ^ 128)) by lia. f_equal; [lia|].
  destruct (Z.ltb_spec a (b + c)); lia.
Qed.
Lemma portable32_correct a b c :
  0 <= a < 2 ^ 32 -> 0 <= b < 2 ^ 32 -> 0 <= c <= 1 ->
  sub_with_borrow_portable32 a b c = ((a - b - c) mod 2 ^ 32, if a <? b + c then 1 else 0).
Proof.
  intros Ha Hb Hc. unfold sub_with_borrow_portable32, trunc. cbv zeta.
  rewrite (Z.mod_small _ (2 ^ 64)) by lia. f_equal; [lia|].
  destruct (Z.eqb_spec ((2 ^ 32 + a - b - c) / 2 ^ 32) 0); destruct (Z.ltb_spec a (b + c)); lia.
Qed.
Lemma portable64_refuted : exists a b c,
  0 <= a < 2 ^ 64 /\ 0 <= b < 2 ^ 64 /\ (c = 0 \/ c = 1) /\
  snd (sub_with_borrow_portable64 a b c) <> (if a <? b + c then 1 else 0).
Proof. exists 1, 0, 0. split; [lia|]. split; [lia|]. split; [auto|]. vm_compute. discriminate. Qed.
