(** Montgomery reduction and multi-limb prime-field arithmetic. *)
From Coq Require Import ZArith List Bool Lia Znumtheory.
From Coq Require Import ZifyBool ZifyNat.
From Verif Require Import BigIntModel BigIntSpec BigIntProof BigIntProof2 PrimeFieldModel PrimeFieldSpec.
Import ListNotations.
Open Scope Z_scope.

(** ** One Montgomery row *)
Lemma mont_k_cancels B r0 inv m0 : 1 < B -> (inv * m0) mod B = B - 1 ->
  (r0 + ((r0 * inv) mod B) * m0) mod B = 0.
Proof.
  intros HB H.
  rewrite <- Z.add_mod_idemp_r, Z.mul_mod_idemp_l, Z.add_mod_idemp_r by lia.
  replace (r0 + r0 * inv * m0) with (r0 * (1 + inv * m0)) by ring.
  rewrite <- Z.mul_mod_idemp_r by lia. rewrite <- Z.add_mod_idemp_r by lia. rewrite H.
  replace (1 + (B - 1)) with (0 + 1 * B) by ring. rewrite Z.mod_add, Z.mod_0_l, Z.mul_0_r by lia.
  apply Z.mod_0_l. lia.
Qed.

Lemma mont_first w r0 m0 inv lo hi : 0 < w -> 0 <= r0 < 2 ^ w -> 0 <= m0 < 2 ^ w ->
  (inv * m0) mod 2 ^ w = 2 ^ w - 1 ->
  mul_add_with_carry w r0 (trunc w (r0 * inv)) m0 0 = (lo, hi) ->
  2 ^ w * hi = r0 + trunc w (r0 * inv) * m0 /\ 0 <= hi < 2 ^ w.
Proof.
  intros Hw Hr Hm Hi E.
  assert (HB : 2 <= 2 ^ w) by (apply (Z.pow_le_mono_r 2 1 w); lia).
  pose proof (trunc_range w (r0 * inv) ltac:(lia)) as Hk.
  apply mul_add_with_carry_spec in E; auto; try lia. destruct E as (E & Hlo & Hhi).
  split; [|exact Hhi].
  assert (L : (lo + 2 ^ w * hi) mod 2 ^ w = 0).
  { rewrite E, Z.add_0_r. unfold trunc. apply mont_k_cancels; auto. lia. }
  rewrite Z.mul_comm, Z.mod_add, Z.mod_small in L by lia. lia.
Qed.

Lemma redc_inner_spec w k : forall n m r hi carry e rs c, 0 < w -> limbs w n m -> limbs w (n + S e) r ->
  0 <= k < 2 ^ w -> 0 <= hi < 2 ^ w -> 0 <= carry <= 1 ->
  redc_inner w k m r hi carry = (rs, c) ->
  val w rs + 2 ^ (w * Z.of_nat (S n)) * c = val w r + k * val w m + hi + 2 ^ (w * Z.of_nat n) * carry /\
  limbs w (n + S e) rs /\ 0 <= c <= 1.
Proof.
  induction n as [|n IH]; intros m r hi carry e rs c Hw Hm Hr Hk Hhi Hc E.
  - apply limbs_O in Hm. subst m. cbn [Nat.add] in Hr. apply limbs_S in Hr.
    destruct Hr as (x & r' & -> & Hx & Hr). cbn [redc_inner] in E.
    destruct (add_with_carry w x hi carry) as [s c'] eqn:E1. injection E as <- <-.
    apply add_with_carry_spec in E1; auto. destruct E1 as (E1 & Hs & Hc').
    split; [|split; [apply limbs_cons; auto | auto]].
    cbn [val]. rewrite pow_mul by lia. rewrite Z.mul_0_r. change (2 ^ 0) with 1. lia.
  - apply limbs_S in Hm. destruct Hm as (y & m' & -> & Hy & Hm).
    cbn [Nat.add] in Hr. apply limbs_S in Hr. destruct Hr as (x & r' & -> & Hx & Hr).
    cbn [redc_inner] in E.
    destruct (mul_add_with_carry w x k y hi) as [lo hi'] eqn:E1.
    destruct (redc_inner w k m' r' hi' carry) as [rs' c'] eqn:E2. injection E as <- <-.
    apply mul_add_with_carry_spec in E1; auto. destruct E1 as (E1 & Hlo & Hhi').
    apply IH with (e := e) in E2; auto. destruct E2 as (E2 & Hrs & Hc').
    split; [|split; [cbn [Nat.add]; apply limbs_cons; auto | auto]].
    cbn [val]. rewrite (pow_mul w (S n)), (pow_mul w n) by lia. rewrite (pow_mul w n) in E2 by lia.
    set (P := 2 ^ (w * Z.of_nat n)) in *. set (B := 2 ^ w) in *.
    replace (lo + B * val w rs' + B * (B * P) * c') with (lo + B * (val w rs' + B * P * c')) by ring.
    rewrite E2. nia.
Qed.

Lemma redc_row_spec w inv n m r carry e rs c : 0 < w -> limbs w (S n) m -> limbs w (S n + S e) r ->
  (inv * hd 0 m) mod 2 ^ w = 2 ^ w - 1 -> 0 <= carry <= 1 ->
  redc_row w inv m r carry = (rs, c) ->
  exists k, 0 <= k < 2 ^ w /\
    2 ^ w * (val w rs + 2 ^ (w * Z.of_nat (S n)) * c) =
      val w r + k * val w m + 2 ^ (w * Z.of_nat (S n)) * carry /\
    limbs w (S n + e) rs /\ 0 <= c <= 1.
Proof.
  intros Hw Hm Hr Hi Hc E.
  apply limbs_S in Hm. destruct Hm as (m0 & m' & -> & Hm0 & Hm). cbn [hd] in Hi.
  cbn [Nat.add] in Hr. apply limbs_S in Hr. destruct Hr as (r0 & r' & -> & Hr0 & Hr).
  cbn [redc_row] in E.
  pose proof (trunc_range w (r0 * inv) ltac:(lia)) as Hk.
  destruct (mul_add_with_carry w r0 (trunc w (r0 * inv)) m0 0) as [lo hi] eqn:E1.
  apply mont_first in E1; auto. destruct E1 as (E1 & Hhi).
  apply redc_inner_spec with (n := n) (e := e) in E; auto. destruct E as (E & Hrs & Hc').
  exists (trunc w (r0 * inv)). split; [exact Hk|]. split; [|split; [|exact Hc']].
  - rewrite E. cbn [val]. rewrite (pow_mul w n) by lia. nia.
  - replace (S n + e)%nat with (n + S e)%nat by lia. exact Hrs.
Qed.

Lemma redc_rows_spec w inv n m : forall j r carry e rs c, 0 < w -> limbs w (S n) m ->
  limbs w (S n + (j + e)) r -> (inv * hd 0 m) mod 2 ^ w = 2 ^ w - 1 -> 0 <= carry <= 1 ->
  redc_rows w inv m j r carry = (rs, c) ->
  exists K, 0 <= K < 2 ^ (w * Z.of_nat j) /\
    2 ^ (w * Z.of_nat j) * (val w rs + 2 ^ (w * Z.of_nat (S n)) * c) =
      val w r + K * val w m + 2 ^ (w * Z.of_nat (S n)) * carry /\
    limbs w (S n + e) rs /\ 0 <= c <= 1.
Proof.
  induction j as [|j IH]; intros r carry e rs c Hw Hm Hr Hi Hc E.
  - cbn [redc_rows] in E. injection E as <- <-. exists 0.
    rewrite Z.mul_0_r. change (2 ^ 0) with 1. split; [lia|]. split; [ring|]. split; [exact Hr|exact Hc].
  - cbn [redc_rows] in E. destruct (redc_row w inv m r carry) as [r1 c1] eqn:E1.
    replace (S n + (S j + e))%nat with (S n + S (j + e))%nat in Hr by lia.
    apply redc_row_spec with (n := n) (e := (j + e)%nat) in E1; auto.
    destruct E1 as (k & Hk & E1 & Hr1 & Hc1).
    apply IH with (e := e) in E; auto. destruct E as (K & HK & E & Hrs & Hc').
    exists (k + 2 ^ w * K). rewrite pow_mul by lia.
    set (P := 2 ^ (w * Z.of_nat j)) in *. set (B := 2 ^ w) in *. set (Q := 2 ^ (w * Z.of_nat (S n))) in *.
    split; [nia|]. split; [|split; auto].
    replace (B * P * (val w rs + Q * c)) with (B * (P * (val w rs + Q * c))) by ring.
    rewrite E. replace (B * (val w r1 + K * val w m + Q * c1)) with (B * (val w r1 + Q * c1) + B * K * val w m) by ring.
    rewrite E1. ring.
Qed.

(** ** Clamp *)
Lemma clamp_exact n m v carry (c : bool) spare V : limbs 64 n m -> limbs 64 n v ->
  V = val 64 v + 2 ^ (64 * Z.of_nat n) * carry -> 0 <= carry <= 1 -> c = negb (carry =? 0) ->
  V < 2 * val 64 m -> (spare = true -> 2 * val 64 m <= 2 ^ (64 * Z.of_nat n)) ->
  limbs 64 n (bi_clamp spare m v c) /\
  val 64 (bi_clamp spare m v c) = (if val 64 m <=? V then V - val 64 m else V).
Proof.
  intros Hm Hv EV Hc Ec Hlt Hs. unfold bi_clamp. rewrite (bi_geb_val n) by auto.
  set (R := 2 ^ (64 * Z.of_nat n)) in *.
  pose proof (val_bound 64 n m ltac:(lia) Hm) as Hbm. pose proof (val_bound 64 n v ltac:(lia) Hv) as Hbv.
  fold R in Hbm, Hbv.
  assert (Hneeds : (if spare then val 64 m <=? val 64 v else c || (val 64 m <=? val 64 v)) = (val 64 m <=? V)).
  { assert (carry = 0 \/ carry = 1) as [H0|H0] by lia; subst carry; cbn in Ec; subst c.
    - replace V with (val 64 v) by lia. destruct spare; reflexivity.
    - cbn [orb]. destruct spare.
      + specialize (Hs eq_refl). lia.
      + symmetry. apply Z.leb_le. lia. }
  rewrite Hneeds. destruct (Z.leb_spec (val 64 m) V).
  - split; [apply bi_sub_limbs; auto|]. rewrite (bi_sub_val n) by auto. fold R.
    symmetry. apply Z.mod_unique_pos with (q := - carry); [lia|].
    rewrite EV. ring.
  - split; [exact Hv|]. assert (carry = 0) by nia. subst carry. lia.
Qed.

Lemma half_of_top n m : limbs 64 (S n) m -> has_spare_bit m = true -> 2 * val 64 m <= 2 ^ (64 * Z.of_nat (S n)).
Proof.
  intros Hm Hs.
  assert (Hne : m <> []) by (intros ->; destruct Hm as [Hm _]; discriminate).
  destruct (exists_last Hne) as (l & top & ->).
  unfold has_spare_bit in Hs. rewrite rev_app_distr in Hs. cbn [rev app] in Hs.
  rewrite Z.shiftr_div_pow2 in Hs by lia. apply Z.eqb_eq in Hs.
  destruct Hm as [HL HF]. rewrite app_length in HL. cbn in HL. assert (Hl : length l = n) by lia.
  apply Forall_app in HF. destruct HF as [HF1 HF2]. inversion HF2 as [|? ? Ht _]; subst.
  rewrite val_app by lia. cbn [val].
  pose proof (val_bound 64 (length l) l ltac:(lia) (conj eq_refl HF1)) as Hb.
  assert (top < 2 ^ 63) by (destruct (Z.lt_ge_cases top (2 ^ 63)); auto;
    assert (1 <= top / 2 ^ 63) by (apply Z.div_le_lower_bound; lia); lia).
  rewrite pow_mul by lia. set (P := 2 ^ (64 * Z.of_nat (length l))) in *.
  change (2 ^ 64) with (2 * 2 ^ 63). nia.
Qed.

(** ** MontgomeryReduce *)
Lemma montgomery_reduce_correct n m r inv spare : limbs 64 (S n) m -> limbs 64 (2 * S n) r ->
  (inv * hd 0 m) mod 2 ^ 64 = 2 ^ 64 - 1 ->
  (spare = true -> 2 * val 64 m <= 2 ^ (64 * Z.of_nat (S n))) ->
  val 64 r < val 64 m * 2 ^ (64 * Z.of_nat (S n)) ->
  let out := bi_montgomery_reduce spare r m inv in
  limbs 64 (S n) out /\ 0 <= val 64 out < val 64 m /\
  exists q, val 64 out * 2 ^ (64 * Z.of_nat (S n)) = val 64 r + q * val 64 m.
Proof.
  intros Hm Hr Hi Hs Hlt. cbv zeta. unfold bi_montgomery_reduce.
  rewrite (limbs_length _ _ _ Hm).
  destruct (redc_rows 64 inv m (S n) r 0) as [hi c] eqn:E.
  replace (2 * S n)%nat with (S n + (S n + 0))%nat in Hr by lia.
  apply redc_rows_spec with (n := n) (e := O) in E; auto; try lia.
  destruct E as (K & HK & E & Hhi & Hc). rewrite Nat.add_0_r in Hhi.
  set (R := 2 ^ (64 * Z.of_nat (S n))) in *. rewrite Z.mul_0_r, Z.add_0_r in E.
  set (V := val 64 hi + R * c) in *.
  assert (HR : 0 < R) by (apply pow2_pos; lia).
  pose proof (val_bound 64 _ _ ltac:(lia) Hm) as Hbm.
  pose proof (val_bound 64 _ _ ltac:(lia) Hhi) as Hbh.
  assert (HV : V < 2 * val 64 m) by nia.
  destruct (clamp_exact (S n) m hi c (negb (c =? 0)) spare V Hm Hhi eq_refl Hc eq_refl HV Hs) as [Hl Ev].
  split; [exact Hl|]. rewrite Ev.
  assert (0 <= V) by (unfold V; nia).
  destruct (Z.leb_spec (val 64 m) V).
  - split; [lia|]. exists (K - R). rewrite Z.mul_sub_distr_r, (Z.mul_comm V), E. ring.
  - split; [lia|]. exists K. rewrite Z.mul_comm, E. ring.
Qed.

(** ** FromMontgomery *)
Lemma from_mont_inner_spec w k : forall n m r hi, 0 < w -> limbs w n m -> limbs w n r ->
  0 <= k < 2 ^ w -> 0 <= hi < 2 ^ w ->
  limbs w (S n) (from_mont_inner w k m r hi) /\
  val w (from_mont_inner w k m r hi) = val w r + k * val w m + hi.
Proof.
  induction n as [|n IH]; intros m r hi Hw Hm Hr Hk Hhi.
  - apply limbs_O in Hm, Hr. subst. cbn [from_mont_inner val]. split; [|lia].
    apply limbs_cons. split; auto. apply limbs_O. reflexivity.
  - apply limbs_S in Hm. destruct Hm as (y & m' & -> & Hy & Hm).
    apply limbs_S in Hr. destruct Hr as (x & r' & -> & Hx & Hr). cbn [from_mont_inner].
    destruct (mul_add_with_carry w x k y hi) as [lo hi'] eqn:E1.
    apply mul_add_with_carry_spec in E1; auto. destruct E1 as (E1 & Hlo & Hhi').
    destruct (IH m' r' hi' Hw Hm Hr Hk Hhi') as [Hl E]. split; [apply limbs_cons; auto|].
    cbn [val]. rewrite E. nia.
Qed.
Lemma from_mont_row_spec w inv n m r : 0 < w -> limbs w (S n) m -> limbs w (S n) r ->
  (inv * hd 0 m) mod 2 ^ w = 2 ^ w - 1 ->
  limbs w (S n) (from_mont_row w inv m r) /\
  exists k, 0 <= k < 2 ^ w /\ 2 ^ w * val w (from_mont_row w inv m r) = val w r + k * val w m.
Proof.
  intros Hw Hm Hr Hi.
  apply limbs_S in Hm. destruct Hm as (m0 & m' & -> & Hm0 & Hm). cbn [hd] in Hi.
  apply limbs_S in Hr. destruct Hr as (r0 & r' & -> & Hr0 & Hr). cbn [from_mont_row].
  pose proof (trunc_range w (r0 * inv) ltac:(lia)) as Hk.
  destruct (mul_add_with_carry w r0 (trunc w (r0 * inv)) m0 0) as [lo hi] eqn:E1.
  apply mont_first in E1; auto. destruct E1 as (E1 & Hhi).
  destruct (from_mont_inner_spec w (trunc w (r0 * inv)) n m' r' hi Hw Hm Hr Hk Hhi) as [Hl E].
  split; [exact Hl|]. exists (trunc w (r0 * inv)). split; [exact Hk|].
  rewrite E. cbn [val]. nia.
Qed.
Lemma from_mont_iter_spec w inv n m r : 0 < w -> limbs w (S n) m -> limbs w (S n) r ->
  (inv * hd 0 m) mod 2 ^ w = 2 ^ w - 1 ->
  forall j, limbs w (S n) (Nat.iter j (from_mont_row w inv m) r) /\
  exists K, 0 <= K < 2 ^ (w * Z.of_nat j) /\
    2 ^ (w * Z.of_nat j) * val w (Nat.iter j (from_mont_row w inv m) r) = val w r + K * val w m.
Proof.
  intros Hw Hm Hr Hi. induction j as [|j (Hl & K & HK & E)].
  - split; [exact Hr|]. exists 0. rewrite Z.mul_0_r. change (2 ^ 0) with 1. cbn [Nat.iter nat_rect]. lia.
  - rewrite iter_S. set (x := Nat.iter j (from_mont_row w inv m) r) in *.
    destruct (from_mont_row_spec w inv n m x Hw Hm Hl Hi) as (Hl2 & k & Hk & E2).
    split; [exact Hl2|]. exists (K + 2 ^ (w * Z.of_nat j) * k). rewrite pow_mul by lia.
    set (P := 2 ^ (w * Z.of_nat j)) in *. set (B := 2 ^ w) in *.
    split; [nia|].
    replace (B * P * val w (from_mont_row w inv m x)) with (P * (B * val w (from_mont_row w inv m x))) by ring.
    rewrite E2. replace (P * (val w x + k * val w m)) with (P * val w x + P * k * val w m) by ring.
    rewrite E. ring.
Qed.
Lemma from_montgomery_correct w n m v inv : 0 < w -> limbs w (S n) m -> limbs w (S n) v ->
  (inv * hd 0 m) mod 2 ^ w = 2 ^ w - 1 -> val w v < val w m ->
  let out := bi_from_montgomery w v m inv in
  limbs w (S n) out /\ 0 <= val w out < val w m /\
  exists q, val w out * 2 ^ (w * Z.of_nat (S n)) = val w v + q * val w m.
Proof.
  intros Hw Hm Hv Hi Hlt. cbv zeta. unfold bi_from_montgomery. rewrite (limbs_length _ _ _ Hm).
  destruct (from_mont_iter_spec w inv n m v Hw Hm Hv Hi (S n)) as (Hl & K & HK & E).
  set (out := Nat.iter _ _ v) in *. set (R := 2 ^ (w * Z.of_nat (S n))) in *.
  assert (HR : 0 < R) by (apply pow2_pos; lia).
  pose proof (val_bound w _ _ ltac:(lia) Hl) as Hb. pose proof (val_bound w _ _ ltac:(lia) Hv) as Hbv.
  split; [exact Hl|]. split; [nia|]. exists K. rewrite Z.mul_comm. exact E.
Qed.

(** ** Fast multiplication *)
Lemma fast_inner_spec bi k : forall n a md r hi hi2, limbs 64 n a -> limbs 64 n md -> limbs 64 n r ->
  0 <= bi < 2 ^ 64 -> 0 <= k < 2 ^ 64 -> 0 <= hi < 2 ^ 64 -> 0 <= hi2 < 2 ^ 64 ->
  val 64 r + bi * val 64 a + k * val 64 md + hi + hi2 < 2 ^ (64 * Z.of_nat (S n)) ->
  limbs 64 (S n) (fast_inner bi k a md r hi hi2) /\
  val 64 (fast_inner bi k a md r hi hi2) = val 64 r + bi * val 64 a + k * val 64 md + hi + hi2.
Proof.
  induction n as [|n IH]; intros a md r hi hi2 Ha Hm Hr Hbi Hk Hhi Hhi2 Hlt.
  - apply limbs_O in Ha, Hm, Hr. subst. cbn [fast_inner val] in *.
    change (2 ^ (64 * Z.of_nat 1)) with (2 ^ 64) in Hlt.
    unfold trunc. rewrite Z.mod_small by lia. split; [|lia].
    apply limbs_cons. split; [lia|]. apply limbs_O. reflexivity.
  - apply limbs_S in Ha. destruct Ha as (aj & a' & -> & Haj & Ha).
    apply limbs_S in Hm. destruct Hm as (mj & m' & -> & Hmj & Hm).
    apply limbs_S in Hr. destruct Hr as (rj & r' & -> & Hrj & Hr). cbn [fast_inner].
    destruct (mul_add_with_carry 64 rj aj bi hi) as [lo h] eqn:E1.
    apply mul_add_with_carry_spec in E1; auto; try lia. destruct E1 as (E1 & Hlo & Hh).
    destruct (mul_add_with_carry 64 lo k mj hi2) as [lo2 h2] eqn:E2.
    apply mul_add_with_carry_spec in E2; auto; try lia. destruct E2 as (E2 & Hlo2 & Hh2).
    cbn [val] in Hlt. rewrite (pow_mul 64 (S n)) in Hlt by lia.
    assert (EX : rj + 2 ^ 64 * val 64 r' + bi * (aj + 2 ^ 64 * val 64 a') + k * (mj + 2 ^ 64 * val 64 m') + hi + hi2
      = lo2 + 2 ^ 64 * (val 64 r' + bi * val 64 a' + k * val 64 m' + h + h2)) by nia.
    destruct (IH a' m' r' h h2 Ha Hm Hr Hbi Hk Hh Hh2) as [Hl E]; [lia|].
    split; [apply limbs_cons; auto|]. cbn [val]. rewrite E. lia.
Qed.

Lemma fast_row_spec c n a r bi : let m := cfg_modulus c in
  limbs 64 (S n) m -> limbs 64 (S n) a -> limbs 64 (S n) r -> 0 <= bi < 2 ^ 64 ->
  (cfg_inverse64 c * hd 0 m) mod 2 ^ 64 = 2 ^ 64 - 1 ->
  2 * val 64 m <= 2 ^ (64 * Z.of_nat (S n)) -> val 64 a < val 64 m -> val 64 r < 2 * val 64 m - 1 ->
  limbs 64 (S n) (fast_row c a r bi) /\ val 64 (fast_row c a r bi) < 2 * val 64 m - 1 /\
  exists k, 2 ^ 64 * val 64 (fast_row c a r bi) = val 64 r + val 64 a * bi + k * val 64 m.
Proof.
  cbv zeta. unfold fast_row. generalize (cfg_modulus c) (cfg_inverse64 c). intros m inv.
  intros Hm Ha Hr Hbi Hi Hsp Ham Hrm.
  pose proof (val_bound 64 _ _ ltac:(lia) Hm) as Bm. pose proof (val_bound 64 _ _ ltac:(lia) Ha) as Ba.
  pose proof (val_bound 64 _ _ ltac:(lia) Hr) as Br.
  apply limbs_S in Hm. destruct Hm as (m0 & m' & -> & Hm0 & Hm). cbn [hd] in Hi.
  apply limbs_S in Ha. destruct Ha as (a0 & a' & -> & Ha0 & Ha).
  apply limbs_S in Hr. destruct Hr as (r0 & r' & -> & Hr0 & Hr).
  destruct (mul_add_with_carry 64 r0 a0 bi 0) as [lo hi] eqn:E1.
  apply mul_add_with_carry_spec in E1; auto; try lia. destruct E1 as (E1 & Hlo & Hhi).
  pose proof (trunc_range 64 (lo * inv) ltac:(lia)) as Hk.
  destruct (mul_add_with_carry 64 lo (trunc 64 (lo * inv)) m0 0) as [lo2 hi2] eqn:E2.
  apply mont_first in E2; auto; try lia. destruct E2 as (E2 & Hhi2).
  set (k := trunc 64 (lo * inv)) in *.
  set (S1 := val 64 r' + bi * val 64 a' + k * val 64 m' + hi + hi2).
  assert (ES : 2 ^ 64 * S1 = val 64 (r0 :: r') + val 64 (a0 :: a') * bi + k * val 64 (m0 :: m')).
  { unfold S1. cbn [val]. nia. }
  set (vm := val 64 (m0 :: m')) in *. set (va := val 64 (a0 :: a')) in *. set (vr := val 64 (r0 :: r')) in *.
  assert (HS1 : S1 < 2 * vm - 1).
  { assert (va * bi <= (vm - 1) * (2 ^ 64 - 1)) by nia.
    assert (k * vm <= (2 ^ 64 - 1) * vm) by nia. nia. }
  destruct (fast_inner_spec bi k n a' m' r' hi hi2 Ha Hm Hr Hbi Hk Hhi Hhi2) as [Hl E].
  { fold S1. lia. }
  fold S1 in E. rewrite E. split; [exact Hl|]. split; [exact HS1|]. exists k. exact ES.
Qed.

Lemma fast_fold_spec c n a : let m := cfg_modulus c in
  limbs 64 (S n) m -> limbs 64 (S n) a -> (cfg_inverse64 c * hd 0 m) mod 2 ^ 64 = 2 ^ 64 - 1 ->
  2 * val 64 m <= 2 ^ (64 * Z.of_nat (S n)) -> val 64 a < val 64 m ->
  forall j b r, limbs 64 j b -> limbs 64 (S n) r -> val 64 r < 2 * val 64 m - 1 ->
  limbs 64 (S n) (fold_left (fast_row c a) b r) /\
  val 64 (fold_left (fast_row c a) b r) < 2 * val 64 m - 1 /\
  exists q, 2 ^ (64 * Z.of_nat j) * val 64 (fold_left (fast_row c a) b r) =
            val 64 r + val 64 a * val 64 b + q * val 64 m.
Proof.
  cbv zeta. intros Hm Ha Hi Hsp Ham. induction j as [|j IH]; intros b r Hb Hr Hrm.
  - apply limbs_O in Hb. subst b. cbn [fold_left val]. split; [exact Hr|]. split; [exact Hrm|].
    exists 0. rewrite Z.mul_0_r. change (2 ^ 0) with 1. ring.
  - apply limbs_S in Hb. destruct Hb as (b0 & b' & -> & Hb0 & Hb). cbn [fold_left].
    destruct (fast_row_spec c n a r b0 Hm Ha Hr Hb0 Hi Hsp Ham Hrm) as (Hl & Hlt & k & E).
    destruct (IH b' (fast_row c a r b0) Hb Hl Hlt) as (Hl2 & Hlt2 & q & E2).
    split; [exact Hl2|]. split; [exact Hlt2|].
    exists (k + 2 ^ 64 * q). rewrite pow_mul by lia. cbn [val].
    set (P := 2 ^ (64 * Z.of_nat j)) in *.
    replace (2 ^ 64 * P * val 64 (fold_left (fast_row c a) b' (fast_row c a r b0)))
      with (2 ^ 64 * (P * val 64 (fold_left (fast_row c a) b' (fast_row c a r b0)))) by ring.
    rewrite E2. nia.
Qed.

(** ** Well-formed configurations *)
Definition good_config (n : nat) (c : pf_config) : Prop :=
  limbs 64 (S n) (cfg_modulus c) /\
  1 < val 64 (cfg_modulus c) /\
  (cfg_inverse64 c * hd 0 (cfg_modulus c)) mod 2 ^ 64 = 2 ^ 64 - 1 /\
  (cfg_spare c = true -> 2 * val 64 (cfg_modulus c) <= 2 ^ (64 * Z.of_nat (S n))) /\
  (cfg_nocarry c = true -> 2 * val 64 (cfg_modulus c) <= 2 ^ (64 * Z.of_nat (S n))) /\
  limbs 64 (S n) (cfg_r2 c) /\
  val 64 (cfg_r2 c) = (2 ^ (64 * Z.of_nat (S n)) * 2 ^ (64 * Z.of_nat (S n))) mod val 64 (cfg_modulus c) /\
  limbs 64 (S n) (cfg_one c) /\
  val 64 (cfg_one c) = 2 ^ (64 * Z.of_nat (S n)) mod val 64 (cfg_modulus c).

Section Ops.
  Variables (n : nat) (c : pf_config).
  Hypothesis G : good_config n c.
  Let m := cfg_modulus c.
  Let p := val 64 m.
  Let R := 2 ^ (64 * Z.of_nat (S n)).

  Lemma G_m : limbs 64 (S n) m. Proof. apply G. Qed.
  Lemma G_p : 1 < p. Proof. apply G. Qed.
  Lemma G_inv : (cfg_inverse64 c * hd 0 m) mod 2 ^ 64 = 2 ^ 64 - 1. Proof. apply G. Qed.
  Lemma G_spare : cfg_spare c = true -> 2 * p <= R. Proof. apply G. Qed.
  Lemma G_nocarry : cfg_nocarry c = true -> 2 * p <= R. Proof. apply G. Qed.
  Lemma G_R : 0 < R. Proof. apply pow2_pos. lia. Qed.
  Lemma G_pR : p < R. Proof. apply (val_bound 64 (S n) m); [lia | apply G_m]. Qed.

  (** p is odd, hence coprime to R *)
  Lemma G_odd : Z.odd p = true.
  Proof.
    pose proof G_inv as Hi. pose proof G_m as Hm. unfold p.
    apply limbs_S in Hm. destruct Hm as (m0 & m' & E & Hm0 & Hm). rewrite E in *. cbn [hd] in Hi. cbn [val].
    rewrite Z.odd_add, Z.odd_mul. change (Z.odd (2 ^ 64)) with false. cbn [andb]. rewrite xorb_false_r.
    destruct (Z.odd m0) eqn:Eo; [reflexivity|exfalso].
    rewrite <- Z.negb_even in Eo. apply negb_false_iff in Eo. apply Z.even_spec in Eo. destruct Eo as [h Eh].
    assert (L : ((cfg_inverse64 c * m0) mod 2 ^ 64) mod 2 = 0).
    { rewrite Eh. replace (cfg_inverse64 c * (2 * h)) with (2 * (cfg_inverse64 c * h)) by ring.
      change (2 ^ 64) with (2 * 2 ^ 63). rewrite Z.mul_mod_distr_l by lia.
      rewrite Z.mul_comm. apply Z.mod_mul. lia. }
    rewrite Hi in L. vm_compute in L. discriminate.
  Qed.
  Lemma G_coprime : rel_prime R p.
  Proof.
    unfold R. generalize (64 * Z.of_nat (S n)) (ltac:(lia) : 0 <= 64 * Z.of_nat (S n)). intros e He.
    apply rel_prime_sym. pattern e. apply natlike_ind; auto.
    - apply rel_prime_1' || (apply rel_prime_sym; apply rel_prime_1).
    - intros x Hx IH. rewrite Z.pow_succ_r by lia. apply rel_prime_mult; [|exact IH].
      apply rel_prime_sym. apply prime_rel_prime; [apply prime_2|].
      intros [k Ek]. pose proof G_odd as Ho. rewrite Ek, Z.odd_mul in Ho.
      change (Z.odd 2) with false in Ho. rewrite andb_false_r in Ho. discriminate.
  Qed.
  Lemma cancel_R x y : (x * R) mod p = (y * R) mod p -> x mod p = y mod p.
  Proof.
    intros H. pose proof G_p as Hp.
    assert (D : (p | (x - y) * R)).
    { exists (((x * R) / p) - ((y * R) / p)).
      pose proof (Z.div_mod (x * R) p ltac:(lia)). pose proof (Z.div_mod (y * R) p ltac:(lia)).
      nia. }
    rewrite Z.mul_comm in D. apply Gauss in D; [|apply rel_prime_sym; apply G_coprime].
    destruct D as [k Ek]. replace x with (y + k * p) by lia. apply Z.mod_add. lia.
  Qed.

  Lemma eq_mod_of_mul out v q : 0 <= out < p -> out * R = v + q * p -> forall x y,
    v = (x * R) mod p * ((y * R) mod p) -> out = (x * y * R) mod p.
  Proof.
    intros Ho E x y Ev. pose proof G_p as Hp.
    assert (C : (out * R) mod p = ((x * y * R) * R) mod p).
    { rewrite E, Z.mod_add by lia. rewrite Ev, <- Z.mul_mod by lia. f_equal. ring. }
    apply cancel_R in C. rewrite Z.mod_small in C by lia. exact C.
  Qed.

  Local Notation rep := (represents (S n) p).

  Lemma rep_range a x : rep a x -> limbs 64 (S n) a /\ 0 <= val 64 a < p.
  Proof. intros (H1 & H2 & _). split; auto. split; [apply (val_bound 64 (S n)); auto; lia | exact H2]. Qed.
  Lemma rep_val a x : rep a x -> val 64 a = (x * R) mod p.
  Proof. intros (_ & _ & H). exact H. Qed.
  Lemma rep_intro a x : limbs 64 (S n) a -> val 64 a mod p = (x * R) mod p -> 0 <= val 64 a < p -> rep a x.
  Proof. intros H1 H2 H3. split; auto. split; [lia|]. fold R. rewrite <- H2. symmetry. apply Z.mod_small. lia. Qed.

  Lemma pf_add_rep a b x y : rep a x -> rep b y -> rep (pf_add c a b) (x + y).
  Proof.
    intros Ha Hb. destruct (rep_range _ _ Ha) as [La Ra]. destruct (rep_range _ _ Hb) as [Lb Rb].
    unfold pf_add. destruct (bi_add_carry a b) as [r carry] eqn:E.
    unfold bi_add_carry in E. apply do_add_spec with (n := S n) in E; auto; try lia.
    destruct E as (E & Hr & Hc). rewrite Z.add_0_r in E.
    destruct (clamp_exact (S n) m r carry (negb (carry =? 0)) (cfg_spare c) (val 64 a + val 64 b) G_m Hr (eq_sym E) Hc eq_refl ltac:(fold p; lia) G_spare) as [Hl Ev].
    fold m. apply rep_intro; [exact Hl| |].
    - rewrite Ev. fold p. pose proof G_p. rewrite Z.mul_add_distr_r, Z.add_mod by lia.
      rewrite <- (rep_val _ _ Ha), <- (rep_val _ _ Hb).
      destruct (Z.leb_spec p (val 64 a + val 64 b)); [|reflexivity].
      rewrite <- (Z.mod_add _ 1) by lia. f_equal. lia.
    - rewrite Ev. fold p. destruct (Z.leb_spec p (val 64 a + val 64 b)); lia.
  Qed.

  Lemma pf_double_rep a x : rep a x -> rep (pf_double c a) (2 * x).
  Proof.
    intros Ha. destruct (rep_range _ _ Ha) as [La Ra].
    unfold pf_double. pose proof (do_mul_by_2_spec (S n) a 0 La ltac:(lia)) as E.
    change (do_mul_by_2 a 0) with (bi_mul_by_2 a) in E.
    destruct (bi_mul_by_2 a) as [r carry]. destruct E as (Hr & Hc & E). rewrite Z.add_0_r in E.
    destruct (clamp_exact (S n) m r carry (negb (carry =? 0)) (cfg_spare c) (2 * val 64 a) G_m Hr (eq_sym E) Hc eq_refl ltac:(fold p; lia) G_spare) as [Hl Ev].
    fold m. pose proof G_p. apply rep_intro; [exact Hl| |].
    - rewrite Ev. fold p. rewrite <- Z.mul_assoc, <- Z.mul_mod_idemp_r by lia. rewrite <- (rep_val _ _ Ha).
      destruct (Z.leb_spec p (2 * val 64 a)); [|reflexivity].
      rewrite <- (Z.mod_add _ 1) by lia. f_equal. lia.
    - rewrite Ev. fold p. destruct (Z.leb_spec p (2 * val 64 a)); lia.
  Qed.

  Lemma pf_sub_rep a b x y : rep a x -> rep b y -> rep (pf_sub c a b) (x - y).
  Proof.
    intros Ha Hb. destruct (rep_range _ _ Ha) as [La Ra]. destruct (rep_range _ _ Hb) as [Lb Rb].
    pose proof G_p as Hp. pose proof G_m as Hm. pose proof G_pR as HpR.
    assert (Target : forall o, limbs 64 (S n) o -> val 64 o = (if val 64 a <? val 64 b then val 64 a + p - val 64 b else val 64 a - val 64 b) -> rep o (x - y)).
    { intros o Ho Eo. apply rep_intro; [exact Ho| |].
      - rewrite Eo, Z.mul_sub_distr_r, Zminus_mod. rewrite <- (rep_val _ _ Ha), <- (rep_val _ _ Hb).
        destruct (val 64 a <? val 64 b); [|reflexivity].
        rewrite <- (Z.mod_add _ (-1)) by lia. f_equal. lia.
      - rewrite Eo. destruct (Z.ltb_spec (val 64 a) (val 64 b)); lia. }
    unfold pf_sub. fold m. rewrite (bi_gtb_val (S n)) by auto.
    destruct (Z.ltb_spec (val 64 a) (val 64 b)).
    - apply Target; [apply bi_sub_limbs; auto; apply bi_add_limbs; auto|].
      rewrite (bi_sub_val (S n)), (bi_add_val (S n)) by (auto; apply bi_add_limbs; auto).
      fold R p. rewrite Zminus_mod_idemp_l. rewrite Z.mod_small by lia. reflexivity.
    - apply Target; [apply bi_sub_limbs; auto|]. apply (bi_sub_val_exact (S n)); auto; lia.
  Qed.

  Lemma pf_neg_rep a x : rep a x -> rep (pf_neg c a) (- x).
  Proof.
    intros Ha. destruct (rep_range _ _ Ha) as [La Ra]. pose proof G_p as Hp. pose proof G_m as Hm.
    unfold pf_neg. fold m. rewrite (bi_is_zero_val 64 (S n)) by (auto; lia).
    assert (EN : (- val 64 a) mod p = (- x * R) mod p).
    { rewrite (rep_val _ _ Ha). replace (- x * R) with (0 - x * R) by ring.
      replace (- ((x * R) mod p)) with (0 - (x * R) mod p) by ring. apply Zminus_mod_idemp_r. }
    destruct (Z.eqb_spec (val 64 a) 0) as [E|E].
    - apply rep_intro; auto. rewrite <- EN, E. reflexivity.
    - assert (Es : val 64 (bi_sub m a) = p - val 64 a) by (apply (bi_sub_val_exact (S n)); auto; fold p; lia).
      apply rep_intro; [apply bi_sub_limbs; auto| |rewrite Es; lia].
      rewrite Es, <- EN. rewrite <- (Z.mod_add (- val 64 a) 1) by lia. f_equal. lia.
  Qed.

  Lemma pf_fast_mul_gen a b : limbs 64 (S n) a -> 0 <= val 64 a < p -> limbs 64 (S n) b -> 2 * p <= R ->
    limbs 64 (S n) (do_fast_mul c a b) /\ 0 <= val 64 (do_fast_mul c a b) < p /\
    exists q, val 64 (do_fast_mul c a b) * R = val 64 a * val 64 b + q * p.
  Proof.
    intros La Ra Lb Hsp. pose proof G_p as Hp. pose proof G_m as Hm. unfold do_fast_mul.
    destruct (fast_fold_spec c n a Hm La G_inv Hsp ltac:(fold m; fold p; lia) (S n) b (map (fun _ => 0) a) Lb)
      as (Hl & Hlt & q & E).
    { apply limbs_map0; [lia | apply (limbs_length _ _ _ La)]. }
    { rewrite val_map0. fold m. fold p. lia. }
    rewrite val_map0 in E. fold m in E, Hlt. fold p in E, Hlt. fold R in E.
    set (o := fold_left (fast_row c a) b (map (fun _ => 0) a)) in *.
    pose proof (val_bound 64 (S n) o ltac:(lia) Hl) as Bo.
    destruct (clamp_exact (S n) m o 0 false (cfg_spare c) (val 64 o) Hm Hl ltac:(ring) ltac:(lia) eq_refl ltac:(fold p; lia) G_spare) as [Hl2 Ev].
    fold m. rewrite Ev. fold p. split; [exact Hl2|].
    destruct (Z.leb_spec p (val 64 o)).
    - split; [lia|]. exists (q - R). rewrite Z.mul_sub_distr_r, Z.mul_comm, E. ring.
    - split; [lia|]. exists q. rewrite Z.mul_comm, E. ring.
  Qed.
  Lemma pf_reduce_gen r : limbs 64 (2 * S n) r -> val 64 r < p * R ->
    let o := bi_montgomery_reduce (cfg_spare c) r m (cfg_inverse64 c) in
    limbs 64 (S n) o /\ 0 <= val 64 o < p /\ exists q, val 64 o * R = val 64 r + q * p.
  Proof.
    intros Hl Hlt. apply montgomery_reduce_correct; auto.
    - apply G_m. - apply G_inv. - apply G_spare.
  Qed.
  Lemma pf_slow_mul_gen a b : limbs 64 (S n) a -> 0 <= val 64 a < p -> limbs 64 (S n) b ->
    limbs 64 (S n) (do_slow_mul c a b) /\ 0 <= val 64 (do_slow_mul c a b) < p /\
    exists q, val 64 (do_slow_mul c a b) * R = val 64 a * val 64 b + q * p.
  Proof.
    intros La Ra Lb. destruct (bi_mul_extend_correct (S n) a b La Lb) as [Hl E].
    unfold do_slow_mul. rewrite <- E. apply pf_reduce_gen; auto.
    rewrite E. pose proof (val_bound 64 (S n) b ltac:(lia) Lb). fold R in H. pose proof G_R. nia.
  Qed.
  Lemma pf_mul_gen a b : limbs 64 (S n) a -> 0 <= val 64 a < p -> limbs 64 (S n) b ->
    limbs 64 (S n) (pf_mul c a b) /\ 0 <= val 64 (pf_mul c a b) < p /\
    exists q, val 64 (pf_mul c a b) * R = val 64 a * val 64 b + q * p.
  Proof.
    intros La Ra Lb. unfold pf_mul. destruct (cfg_nocarry c) eqn:E.
    - apply pf_fast_mul_gen; auto. apply G_nocarry. exact E.
    - apply pf_slow_mul_gen; auto.
  Qed.
  Lemma pf_mul_rep a b x y : rep a x -> rep b y -> rep (pf_mul c a b) (x * y).
  Proof.
    intros Ha Hb. destruct (rep_range _ _ Ha) as [La Ra]. destruct (rep_range _ _ Hb) as [Lb Rb].
    destruct (pf_mul_gen a b La Ra Lb) as (Hl & Hr & q & E).
    split; [exact Hl|]. split; [lia|].
    eapply eq_mod_of_mul; eauto. rewrite (rep_val _ _ Ha), (rep_val _ _ Hb). reflexivity.
  Qed.
  Lemma pf_fast_mul_rep a b x y : cfg_nocarry c = true -> rep a x -> rep b y -> rep (do_fast_mul c a b) (x * y).
  Proof. intros E Ha Hb. pose proof (pf_mul_rep a b x y Ha Hb) as H. unfold pf_mul in H. rewrite E in H. exact H. Qed.
  Lemma pf_slow_mul_rep a b x y : rep a x -> rep b y -> rep (do_slow_mul c a b) (x * y).
  Proof.
    intros Ha Hb. destruct (rep_range _ _ Ha) as [La Ra]. destruct (rep_range _ _ Hb) as [Lb Rb].
    destruct (pf_slow_mul_gen a b La Ra Lb) as (Hl & Hr & q & E).
    split; [exact Hl|]. split; [lia|].
    eapply eq_mod_of_mul; eauto. rewrite (rep_val _ _ Ha), (rep_val _ _ Hb). reflexivity.
  Qed.

  (** *** Square *)
  Fixpoint offd (a : list Z) : Z :=
    match a with [] => 0 | x :: a' => x * val 64 a' + 2 ^ 64 * (2 ^ 64 * offd a') end.
  Fixpoint diag (a : list Z) : Z :=
    match a with [] => 0 | x :: a' => x * x + 2 ^ 64 * (2 ^ 64 * diag a') end.
  Lemma square_split a : val 64 a * val 64 a = diag a + 2 * 2 ^ 64 * offd a.
  Proof. induction a as [|x a IH]; cbn [val offd diag]; [ring|]. nia. Qed.
  Lemma offd_nonneg a k : limbs 64 k a -> 0 <= offd a /\ 0 <= diag a.
  Proof.
    revert k. induction a as [|x a IH]; intros k H; cbn [offd diag]; [lia|].
    apply limbs_cons_inv in H. destruct H as (k' & -> & Hx & Hl). specialize (IH _ Hl).
    pose proof (val_bound 64 _ _ ltac:(lia) Hl). nia.
  Qed.

  Lemma sq_off_cons x a' r : a' <> [] -> sq_off (x :: a') r =
    match mul_row 64 x a' r 0 with x1 :: y1 :: rest => x1 :: y1 :: sq_off a' rest | l => l end.
  Proof. destruct a'; [congruence|reflexivity]. Qed.
  Lemma sq_double_tail_cons prev x r' : r' <> [] -> sq_double_tail prev (x :: r') =
    Z.lor (trunc 64 (Z.shiftl x 1)) (Z.shiftr prev 63) :: sq_double_tail x r'.
  Proof. destruct r'; [congruence|reflexivity]. Qed.
  Lemma sq_off_spec : forall k a r, limbs 64 (S k) a -> limbs 64 (S (2 * k)) r ->
    (forall j, (k <= j)%nat -> nth j r 0 = 0) ->
    limbs 64 (S (2 * k)) (sq_off a r) /\ val 64 (sq_off a r) = val 64 r + offd a /\
    nth (2 * k) (sq_off a r) 0 = 0.
  Proof.
    induction k as [|k IH]; intros a r Ha Hr H0.
    - apply limbs_S in Ha. destruct Ha as (x & a' & -> & Hx & Ha). apply limbs_O in Ha. subst a'.
      cbn [sq_off offd val]. split; [exact Hr|]. split; [lia|]. apply H0. lia.
    - apply limbs_S in Ha. destruct Ha as (x & a' & -> & Hx & Ha).
      assert (Hne : a' <> []) by (intros E; subst a'; destruct Ha as [Ha _]; discriminate Ha).
      rewrite sq_off_cons by exact Hne.
      replace (S (2 * S k))%nat with (S k + S (S k))%nat in Hr by lia.
      destruct (mul_row_spec 64 (S k) x a' r 0 (S k) ltac:(lia) Ha Hr Hx ltac:(lia)) as (Ev & Hl & Hk).
      { apply H0. lia. }
      destruct (mul_row 64 x a' r 0) as [|x1 [|x2 rest]] eqn:Er.
      { destruct Hl as [Hl _]. cbn in Hl. lia. }
      { destruct Hl as [Hl _]. cbn in Hl. lia. }
      replace (S k + S (S k))%nat with (S (S (S (2 * k)))) in Hl by lia.
      apply limbs_cons in Hl. destruct Hl as [Hx1 Hl]. apply limbs_cons in Hl. destruct Hl as [Hx2 Hl].
      destruct (IH a' rest Ha Hl) as (Hl2 & Ev2 & Hz).
      { intros j Hj. specialize (Hk (S (S j)) ltac:(lia)). cbn [nth] in Hk. rewrite Hk. apply H0. lia. }
      replace (S (2 * S k))%nat with (S (S (S (2 * k)))) by lia.
      split; [apply limbs_cons; split; auto; apply limbs_cons; auto|].
      split; [cbn [val offd] in *; rewrite Ev2; lia|].
      replace (2 * S k)%nat with (S (S (2 * k))) by lia. cbn [nth]. exact Hz.
  Qed.

  Lemma sq_double_tail_spec : forall k prev r, limbs 64 (S k) r -> 0 <= prev < 2 ^ 64 ->
    nth k r 0 = 0 ->
    limbs 64 (S k) (sq_double_tail prev r) /\
    val 64 (sq_double_tail prev r) = 2 * val 64 r + Z.shiftr prev 63.
  Proof.
    induction k as [|k IH]; intros prev r Hr Hp H0.
    - apply limbs_S in Hr. destruct Hr as (x & r' & -> & Hx & Hr). apply limbs_O in Hr. subst r'.
      cbn in H0. subst x. cbn [sq_double_tail val].
      assert (0 <= Z.shiftr prev 63 <= 1).
      { rewrite Z.shiftr_div_pow2 by lia. split; [apply Z.div_pos; lia|].
        assert (prev / 2 ^ 63 < 2); [apply Z.div_lt_upper_bound; lia|lia]. }
      split; [apply limbs_cons; split; [lia|apply limbs_O; reflexivity]|]. lia.
    - apply limbs_S in Hr. destruct Hr as (x & r' & -> & Hx & Hr).
      assert (Hne : r' <> []) by (intros E; subst r'; destruct Hr as [Hr _]; discriminate Hr).
      rewrite sq_double_tail_cons by exact Hne.
      assert (Hpv : 0 <= Z.shiftr prev 63 <= 1).
      { rewrite Z.shiftr_div_pow2 by lia. split; [apply Z.div_pos; lia|].
        assert (prev / 2 ^ 63 < 2); [apply Z.div_lt_upper_bound; lia|lia]. }
      cbn [nth] in H0. destruct (IH x r' Hr Hx H0) as [Hl Ev].
      destruct (shl_trunc x 1 ltac:(lia) Hx) as (E1 & E2 & E3).
      change (64 - 1) with 63 in *. change (2 ^ 1) with 2 in *.
      pose proof (Z.mod_pos_bound x (2 ^ 63) ltac:(lia)) as Hm63.
      assert (EL : Z.lor (trunc 64 (Z.shiftl x 1)) (Z.shiftr prev 63) = trunc 64 (Z.shiftl x 1) + Z.shiftr prev 63).
      { apply lor_disjoint_add with (n := 1); lia. }
      rewrite EL. split; [apply limbs_cons; split; auto; lia|]. cbn [val]. rewrite Ev. lia.
  Qed.

  Lemma sq_diag_spec : forall k a r carry, limbs 64 k a -> limbs 64 (2 * k) r -> 0 <= carry <= 1 ->
    limbs 64 (2 * k) (sq_diag a r carry) /\
    exists c', 0 <= c' <= 1 /\
      val 64 (sq_diag a r carry) + 2 ^ (64 * Z.of_nat (2 * k)) * c' = val 64 r + diag a + carry.
  Proof.
    induction k as [|k IH]; intros a r carry Ha Hr Hc.
    - apply limbs_O in Ha. subst a. cbn [sq_diag diag]. split; [exact Hr|]. exists carry. split; [exact Hc|].
      change (2 ^ (64 * Z.of_nat (2 * 0))) with 1. lia.
    - apply limbs_S in Ha. destruct Ha as (x & a' & -> & Hx & Ha).
      replace (2 * S k)%nat with (S (S (2 * k))) in * by lia.
      apply limbs_S in Hr. destruct Hr as (r0 & r' & -> & Hr0 & Hr).
      apply limbs_S in Hr. destruct Hr as (r1 & r'' & -> & Hr1 & Hr). cbn [sq_diag].
      destruct (mul_add_with_carry 64 r0 x x carry) as [lo hi] eqn:E1.
      apply mul_add_with_carry_spec in E1; auto; try lia. destruct E1 as (E1 & Hlo & Hhi).
      destruct (add_with_carry 64 r1 hi 0) as [s c2] eqn:E2.
      apply add_with_carry_spec in E2; auto; try lia. destruct E2 as (E2 & Hs & Hc2).
      destruct (IH a' r'' c2 Ha Hr Hc2) as (Hl & c' & Hc' & E).
      split; [apply limbs_cons; split; auto; apply limbs_cons; auto|].
      exists c'. split; [exact Hc'|]. cbn [val diag]. rewrite !pow_mul by lia.
      set (P := 2 ^ (64 * Z.of_nat (2 * k))) in *. nia.
  Qed.

  Lemma nth_repeat0' j k : nth j (repeat 0 k) 0 = 0. Proof. apply nth_repeat0. Qed.

  Lemma sq_wide_spec k a : limbs 64 (S (S k)) a ->
    limbs 64 (2 * S (S k)) (sq_wide a) /\ val 64 (sq_wide a) = val 64 a * val 64 a.
  Proof.
    intros Ha. unfold sq_wide. rewrite (limbs_length _ _ _ Ha).
    replace (2 * S (S k))%nat with (S (S (S (S (2 * k))))) by lia.
    cbn [repeat].
    assert (Hz : limbs 64 (S (2 * S k)) (0 :: 0 :: 0 :: repeat 0 (2 * k))).
    { replace (S (2 * S k))%nat with (S (S (S (2 * k)))) by lia.
      apply (limbs_repeat0 64 (S (S (S (2 * k))))). lia. }
    destruct (sq_off_spec (S k) a _ Ha Hz) as (Hl & Ev & Htop).
    { intros j _. apply (nth_repeat0 j (S (S (S (2 * k))))). }
    assert (Ez : val 64 (0 :: 0 :: 0 :: repeat 0 (2 * k)) = 0) by (apply (val_repeat0 64 (S (S (S (2 * k)))))).
    rewrite Ez in Ev. set (w1 := sq_off a _) in *.
    replace (S (2 * S k))%nat with (S (S (S (2 * k)))) in Hl by lia.
    apply limbs_S in Hl. destruct Hl as (r1 & rest & Ew & Hr1 & Hrest). rewrite Ew in *. clear w1 Ew.
    cbn [sq_double].
    replace (2 * S k)%nat with (S (S (2 * k))) in Htop by lia. cbn [nth] in Htop.
    destruct (sq_double_tail_spec (S (2 * k)) r1 rest Hrest Hr1 Htop) as [Hl2 Ev2].
    destruct (shl_trunc r1 1 ltac:(lia) Hr1) as (E1 & E2 & E3).
    change (64 - 1) with 63 in *. change (2 ^ 1) with 2 in *.
    pose proof (trunc_range 64 (Z.shiftl r1 1) ltac:(lia)) as Ht.
    set (dbl := 0 :: trunc 64 (Z.shiftl r1 1) :: sq_double_tail r1 rest).
    assert (Hd : limbs 64 (2 * S (S k)) dbl).
    { replace (2 * S (S k))%nat with (S (S (S (S (2 * k))))) by lia.
      unfold dbl. apply limbs_cons. split; [lia|]. apply limbs_cons. split; auto. }
    assert (Evd : val 64 dbl = 2 * 2 ^ 64 * offd a).
    { unfold dbl. cbn [val] in *. rewrite Ev2. lia. }
    destruct (sq_diag_spec (S (S k)) a dbl 0 Ha Hd ltac:(lia)) as (Hl3 & c' & Hc' & E).
    replace (2 * S (S k))%nat with (S (S (S (S (2 * k))))) in * by lia.
    split; [exact Hl3|].
    assert (HA := square_split a). rewrite Evd, Z.add_0_r in E.
    pose proof (val_bound 64 _ _ ltac:(lia) Ha) as Ba.
    pose proof (val_bound 64 _ _ ltac:(lia) Hl3) as Bd.
    set (Q := 2 ^ (64 * Z.of_nat (S (S (S (S (2 * k))))))) in *.
    assert (EQ : Q = 2 ^ (64 * Z.of_nat (S (S k))) * 2 ^ (64 * Z.of_nat (S (S k)))).
    { unfold Q. rewrite <- Z.pow_add_r by lia. f_equal. lia. }
    assert (val 64 a * val 64 a < Q) by (rewrite EQ; nia).
    assert (c' = 0) by nia. subst c'. lia.
  Qed.

  Lemma pf_square_rep a x : rep a x -> rep (pf_square c a) (x * x).
  Proof.
    intros Ha. destruct (rep_range _ _ Ha) as [La Ra]. unfold pf_square.
    rewrite (limbs_length _ _ _ La). destruct (Nat.eqb_spec (S n) 1) as [E1|E1].
    - apply pf_mul_rep; auto.
    - assert (exists k, n = S k) as [k Ek] by (destruct n; [lia|eauto]).
      assert (Hw : limbs 64 (2 * S n) (sq_wide a) /\ val 64 (sq_wide a) = val 64 a * val 64 a)
        by (rewrite Ek in La |- *; apply sq_wide_spec; exact La).
      destruct Hw as [Hw Ew].
      destruct (pf_reduce_gen (sq_wide a) Hw) as (Hl & Hr & q & E).
      { rewrite Ew. pose proof G_pR. pose proof G_R. nia. }
      fold m. split; [exact Hl|]. split; [lia|].
      eapply eq_mod_of_mul; eauto. rewrite Ew, (rep_val _ _ Ha). reflexivity.
  Qed.

  (** *** Conversion *)
  Lemma pf_of_bigint_rep v : limbs 64 (S n) v -> val 64 v < p -> rep (pf_of_bigint c v) (val 64 v).
  Proof.
    intros Hv Hlt. pose proof (val_bound 64 _ _ ltac:(lia) Hv) as Hb. pose proof G_p.
    assert (Hr2 : limbs 64 (S n) (cfg_r2 c)) by apply G.
    assert (Er2 : val 64 (cfg_r2 c) = (R * R) mod p) by apply G.
    destruct (pf_mul_gen v (cfg_r2 c) Hv ltac:(lia) Hr2) as (Hl & Hr & q & E).
    unfold pf_of_bigint. split; [exact Hl|]. split; [lia|].
    assert (C : (val 64 (pf_mul c v (cfg_r2 c)) * R) mod p = (val 64 v * R * R) mod p).
    { rewrite E, Z.mod_add, Er2, Z.mul_mod_idemp_r by lia. f_equal. ring. }
    apply cancel_R in C. rewrite Z.mod_small in C by lia. exact C.
  Qed.
  Lemma pf_to_bigint_rep a x : rep a x ->
    limbs 64 (S n) (pf_to_bigint c a) /\ val 64 (pf_to_bigint c a) = x mod p.
  Proof.
    intros Ha. destruct (rep_range _ _ Ha) as [La Ra]. pose proof G_p.
    destruct (from_montgomery_correct 64 n m a (cfg_inverse64 c) ltac:(lia) G_m La G_inv ltac:(fold p; lia))
      as (Hl & Hr & q & E). fold R in E. fold p in E, Hr.
    unfold pf_to_bigint. fold m. split; [exact Hl|].
    assert (C : (val 64 (bi_from_montgomery 64 a m (cfg_inverse64 c)) * R) mod p = (x * R) mod p).
    { rewrite E, Z.mod_add, (rep_val _ _ Ha), Z.mod_mod by lia. reflexivity. }
    apply cancel_R in C. rewrite Z.mod_small in C by lia. exact C.
  Qed.
  Lemma rep_exists x : exists a, rep a x.
  Proof.
    pose proof G_p as Hp. pose proof (Z.mod_pos_bound x p ltac:(lia)) as Hx.
    assert (exists v, limbs 64 (S n) v /\ val 64 v = x mod p) as (v & Hv & Ev).
    { pose proof (val_bound 64 (S n) m ltac:(lia) G_m).
      assert (Hgen : forall k y, 0 <= y < 2 ^ (64 * Z.of_nat k) -> exists v, limbs 64 k v /\ val 64 v = y).
      { induction k as [|k IHk]; intros y Hy.
        - exists []. split; [apply limbs_O; auto|]. change (2 ^ (64 * Z.of_nat 0)) with 1 in Hy. cbn. lia.
        - rewrite pow_mul in Hy by lia. destruct (IHk (y / 2 ^ 64)) as (v & Hv & Ev).
          { split; [apply Z.div_pos; lia|]. apply Z.div_lt_upper_bound; lia. }
          exists (y mod 2 ^ 64 :: v). split; [apply limbs_cons; split; auto; apply Z.mod_pos_bound; lia|].
          cbn [val]. rewrite Ev. symmetry. apply div_mod_split. lia. }
      apply Hgen. fold p in H. lia. }
    exists (pf_of_bigint c v). destruct (pf_of_bigint_rep v Hv ltac:(lia)) as (H1 & H2 & H3).
    split; auto. split; auto. fold R in H3 |- *. rewrite H3, Ev. apply Z.mul_mod_idemp_l. lia.
  Qed.
  Lemma pf_eqb_rep a b x y : rep a x -> rep b y -> pf_eqb a b = (x mod p =? y mod p).
  Proof.
    intros Ha Hb. destruct (rep_range _ _ Ha) as [La Ra]. destruct (rep_range _ _ Hb) as [Lb Rb].
    unfold pf_eqb. rewrite (bi_eqb_spec (S n)) by auto. pose proof G_p.
    destruct (Z.eqb_spec (val 64 a) (val 64 b)) as [E|E]; symmetry.
    - apply Z.eqb_eq. rewrite (rep_val _ _ Ha), (rep_val _ _ Hb) in E. apply cancel_R. exact E.
    - apply Z.eqb_neq. intros C. apply E. rewrite (rep_val _ _ Ha), (rep_val _ _ Hb).
      rewrite <- Z.mul_mod_idemp_l, C, Z.mul_mod_idemp_l by lia. reflexivity.
  Qed.
  Lemma pf_ltb_rep a b x y : rep a x -> rep b y -> pf_ltb c a b = (x mod p <? y mod p).
  Proof.
    intros Ha Hb. destruct (pf_to_bigint_rep a x Ha) as [L1 E1]. destruct (pf_to_bigint_rep b y Hb) as [L2 E2].
    unfold pf_ltb. rewrite (bi_ltb_val (S n)) by auto. rewrite E1, E2. reflexivity.
  Qed.
  Lemma pf_one_rep : rep (cfg_one c) 1.
  Proof.
    assert (H1 : limbs 64 (S n) (cfg_one c)) by apply G.
    assert (H2 : val 64 (cfg_one c) = R mod p) by apply G.
    pose proof G_p. pose proof (Z.mod_pos_bound R p ltac:(lia)).
    split; [exact H1|]. split; [lia|]. fold R. rewrite Z.mul_1_l. exact H2.
  Qed.
End Ops.

(** ** The generated constants are good *)
Lemma pow2_square_step x j : 0 < j -> x mod 2 ^ j = 1 mod 2 ^ j -> (x * x) mod 2 ^ (j + 1) = 1 mod 2 ^ (j + 1).
Proof.
  intros Hj H. assert (HP : 0 < 2 ^ j) by (apply pow2_pos; lia).
  assert (2 <= 2 ^ j) by (apply (Z.pow_le_mono_r 2 1 j); lia).
  rewrite (Z.mod_small 1 (2 ^ j)) in H by lia.
  pose proof (Z.div_mod x (2 ^ j) ltac:(lia)) as D. rewrite H in D.
  set (t := x / 2 ^ j) in *.
  rewrite Z.pow_add_r by lia. change (2 ^ 1) with 2.
  assert (Ej : 2 ^ j = 2 * 2 ^ (j - 1)).
  { replace j with (1 + (j - 1)) at 1 by lia. rewrite Z.pow_add_r by lia. reflexivity. }
  replace (x * x) with (1 + (t + 2 ^ (j - 1) * t * t) * (2 ^ j * 2)).
  - apply Z.mod_add. lia.
  - rewrite D. rewrite Ej. ring.
Qed.
Lemma inverse_iter w m0 : 0 < w -> Z.odd m0 = true -> forall k, Z.of_nat k < w ->
  (Nat.iter k (inverse_step w m0) 1 * m0) mod 2 ^ (Z.of_nat k + 1) = 1 mod 2 ^ (Z.of_nat k + 1).
Proof.
  intros Hw Ho. induction k as [|k IH]; intros Hk.
  - cbn [Nat.iter nat_rect]. change (Z.of_nat 0 + 1) with 1. change (2 ^ 1) with 2.
    rewrite Z.mul_1_l. rewrite Zmod_odd, Ho. reflexivity.
  - rewrite iter_S. specialize (IH ltac:(lia)). set (x := Nat.iter k (inverse_step w m0) 1) in *.
    apply pow2_square_step in IH; [|lia].
    replace (Z.of_nat (S k) + 1) with (Z.of_nat k + 1 + 1) by lia.
    set (j := Z.of_nat k + 1 + 1) in *. rewrite <- IH.
    assert (Hmm : forall y, (y mod 2 ^ w) mod 2 ^ j = y mod 2 ^ j).
    { intros y. replace w with (j + (w - j)) by lia. rewrite Z.pow_add_r by lia.
      rewrite Z.rem_mul_r by (apply Z.pow_nonzero; lia) || (try apply pow2_pos; lia).
      rewrite Z.mul_comm, Z.mod_add by (apply Z.pow_nonzero; lia). apply Z.mod_mod. apply Z.pow_nonzero; lia. }
    unfold inverse_step, trunc.
    assert (Hml : forall y z, ((y mod 2 ^ w) * z) mod 2 ^ j = (y * z) mod 2 ^ j).
    { intros y z. rewrite <- Z.mul_mod_idemp_l, Hmm by (apply Z.pow_nonzero; lia).
      apply Z.mul_mod_idemp_l. apply Z.pow_nonzero; lia. }
    rewrite Hml.
    rewrite <- Z.mul_assoc, Hml.
    replace (x * x * (m0 mod 2 ^ w * m0)) with ((m0 mod 2 ^ w) * (x * x * m0)) by ring.
    rewrite Hml. f_equal. ring.
Qed.
Lemma modulus_inverse_correct w m : 0 < w -> Z.odd (hd 0 m) = true ->
  (modulus_inverse w m * hd 0 m) mod 2 ^ w = 2 ^ w - 1 /\ 0 <= modulus_inverse w m < 2 ^ w.
Proof.
  intros Hw Ho. split; [|apply trunc_range; lia].
  pose proof (inverse_iter w (hd 0 m) Hw Ho (Z.to_nat w - 1) ltac:(lia)) as H.
  unfold modulus_inverse, trunc. set (x := Nat.iter _ _ 1) in *.
  replace (Z.of_nat (Z.to_nat w - 1) + 1) with w in H by lia.
  assert (2 <= 2 ^ w) by (apply (Z.pow_le_mono_r 2 1 w); lia).
  rewrite (Z.mod_small 1) in H by lia.
  rewrite Z.mul_mod_idemp_l by lia.
  replace (- x * hd 0 m) with (0 - x * hd 0 m) by ring.
  rewrite Zminus_mod, H, Z.mod_0_l by lia.
  rewrite <- (Z.mod_add _ 1) by lia. rewrite Z.mod_small by lia. lia.
Qed.

Lemma bi_extend_spec n k m : limbs 64 n m -> (n <= k)%nat ->
  limbs 64 k (bi_extend k m) /\ val 64 (bi_extend k m) = val 64 m.
Proof.
  intros [H1 H2] Hk. apply (pad_limbs_spec 64 k m); auto; lia.
Qed.
Lemma montgomery_pow_correct n k m : limbs 64 (S n) m -> 0 < val 64 m -> (0 < k)%nat ->
  limbs 64 (S n) (montgomery_pow k m) /\
  val 64 (montgomery_pow k m) = 2 ^ (64 * Z.of_nat (S n) * Z.of_nat k) mod val 64 m.
Proof.
  intros Hm Hpos Hk. unfold montgomery_pow. rewrite (limbs_length _ _ _ Hm).
  set (N := (k * S n + 1)%nat).
  destruct (bi_extend_spec (S n) N m Hm ltac:(unfold N; nia)) as [He Ee].
  assert (Hbig : limbs 64 N (repeat 0 (k * S n) ++ [1])).
  { unfold N. apply limbs_app; [apply limbs_repeat0; lia|]. split; [reflexivity|].
    constructor; [lia|constructor]. }
  assert (Ebig : val 64 (repeat 0 (k * S n) ++ [1]) = 2 ^ (64 * Z.of_nat (S n) * Z.of_nat k)).
  { rewrite val_app by lia. rewrite val_repeat0, repeat_length. cbn [val].
    replace (64 * Z.of_nat (k * S n)) with (64 * Z.of_nat (S n) * Z.of_nat k) by lia. ring. }
  destruct (bi_mod_correct N _ _ ltac:(unfold N; lia) Hbig He ltac:(lia)) as [Hl Ev].
  rewrite Ebig, Ee in Ev. unfold bi_shrink.
  assert (HN : exists e, N = (S n + e)%nat) by (exists (N - S n)%nat; unfold N; nia).
  destruct HN as [e He2]. set (bm := bi_mod _ _) in *. clearbody bm. rewrite He2 in Hl.
  split; [apply limbs_firstn with (m := e); exact Hl|].
  rewrite (val_firstn_mod 64 (S n) e) by (auto; lia). rewrite Ev.
  apply Z.mod_small. pose proof (val_bound 64 _ _ ltac:(lia) Hm).
  pose proof (Z.mod_pos_bound (2 ^ (64 * Z.of_nat (S n) * Z.of_nat k)) (val 64 m) ltac:(lia)). lia.
Qed.

Lemma no_carry_spare m : can_use_no_carry m = true -> has_spare_bit m = true.
Proof.
  unfold can_use_no_carry, has_spare_bit. destruct (rev m) as [|top rest]; [discriminate|].
  intros H. apply andb_true_iff in H. tauto.
Qed.
Lemma mk_config_good n m : limbs 64 (S n) m -> 1 < val 64 m -> Z.odd (val 64 m) = true ->
  good_config n (mk_config m).
Proof.
  intros Hm H1 Ho. unfold good_config, mk_config. cbn [cfg_modulus cfg_inverse64 cfg_r2 cfg_one cfg_spare cfg_nocarry].
  assert (Hh : Z.odd (hd 0 m) = true).
  { pose proof Hm as Hm'. apply limbs_S in Hm'. destruct Hm' as (m0 & m' & -> & _ & _). cbn [hd val] in *.
    rewrite Z.odd_add, Z.odd_mul in Ho. change (Z.odd (2 ^ 64)) with false in Ho.
    cbn [andb] in Ho. rewrite xorb_false_r in Ho. exact Ho. }
  split; [exact Hm|]. split; [exact H1|].
  split; [apply modulus_inverse_correct; auto; lia|].
  split; [intros Hs; apply half_of_top; auto|].
  split; [intros Hs; apply half_of_top; auto; apply no_carry_spare; auto|].
  destruct (montgomery_pow_correct n 2 m Hm ltac:(lia) ltac:(lia)) as [L2 E2].
  destruct (montgomery_pow_correct n 1 m Hm ltac:(lia) ltac:(lia)) as [L1 E1].
  split; [exact L2|]. split; [|split; [exact L1|]].
  - unfold montgomery_r2. rewrite E2. f_equal. rewrite <- Z.pow_add_r by lia. f_equal. lia.
  - unfold montgomery_r. rewrite E1. f_equal. f_equal. lia.
Qed.
