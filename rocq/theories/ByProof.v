(** Arithmetic of the chunked two's complement numbers. *)
From Coq Require Import ZArith List Bool Lia.
From Verif Require Import ByModel BySpec.
Import ListNotations.
Open Scope Z_scope.

Lemma MASK_ones : MASK = Z.ones 62.
Proof. reflexivity. Qed.
Lemma land_mask z : Z.land z MASK = z mod 2 ^ 62.
Proof. rewrite MASK_ones. apply Z.land_ones. lia. Qed.
Lemma shiftr62 z : Z.shiftr z 62 = z / 2 ^ 62.
Proof. apply Z.shiftr_div_pow2. lia. Qed.
Lemma lxor_mask x : 0 <= x < 2 ^ 62 -> Z.lxor x MASK = MASK - x.
Proof.
  intros H. assert (E : Z.land x (Z.lxor x MASK) = 0).
  { apply Z.bits_inj'. intros i Hi. rewrite Z.land_spec, Z.lxor_spec, Z.bits_0.
    destruct (Z.ltb_spec i 62).
    - rewrite MASK_ones, Z.ones_spec_low by lia. destruct (Z.testbit x i); reflexivity.
    - replace (Z.testbit x i) with false; [reflexivity |]. symmetry. rewrite <- (Z.mod_small x (2 ^ 62)) by lia.
      apply Z.mod_pow2_bits_high. lia. }
  pose proof (Z.add_nocarry_lxor _ _ E) as A. rewrite <- Z.lxor_assoc, Z.lxor_nilpotent, Z.lxor_0_l in A. lia.
Qed.
Lemma pow62 n : 2 ^ (62 * Z.of_nat (S n)) = 2 ^ 62 * 2 ^ (62 * Z.of_nat n).
Proof. rewrite <- Z.pow_add_r by lia. f_equal. lia. Qed.
Lemma pow62_pos n : 0 < 2 ^ (62 * Z.of_nat n).
Proof. apply Z.pow_pos_nonneg; lia. Qed.
Lemma chunk_step s T n :
  s mod 2 ^ 62 + 2 ^ 62 * ((s / 2 ^ 62 + T) mod 2 ^ (62 * Z.of_nat n)) = (s + 2 ^ 62 * T) mod 2 ^ (62 * Z.of_nat (S n)).
Proof.
  pose proof (pow62_pos n). rewrite pow62, Z.rem_mul_r by lia.
  rewrite (Z.mul_comm (2 ^ 62) T), Z.mod_add, Z.div_add by lia. reflexivity.
Qed.
Lemma digits_cons b x r : digits b (x :: r) = x + 2 ^ b * digits b r.
Proof. reflexivity. Qed.
Lemma u64_small z : 0 <= z < 2 ^ 64 -> u64 z = z.
Proof. apply Z.mod_small. Qed.
Lemma mod62 z : 0 <= z mod 2 ^ 62 < 2 ^ 62.
Proof. apply Z.mod_pos_bound. lia. Qed.

Lemma add_carry_ok xs : forall ys c, 0 <= c <= 1 -> in_base 62 xs -> in_base 62 ys -> length ys = length xs ->
  length (add_carry c xs ys) = length xs /\ in_base 62 (add_carry c xs ys) /\
  digits 62 (add_carry c xs ys) = (digits 62 xs + digits 62 ys + c) mod 2 ^ (62 * Z.of_nat (length xs)).
Proof.
  induction xs as [|x xs IH]; intros [|y ys] c Hc Hx Hy Hl; try discriminate.
  - split; [reflexivity |]. split; [constructor |]. cbn [add_carry digits fold_right length]. rewrite Z.mod_1_r. reflexivity.
  - inversion_clear Hx. inversion_clear Hy. injection Hl as Hl.
    cbn [add_carry]. cbv zeta. rewrite u64_small by lia. set (s := x + y + c). rewrite land_mask, shiftr62.
    assert (Hq : 0 <= s / 2 ^ 62 <= 1).
    { split; [apply Z.div_pos; unfold s; lia |]. apply Z.lt_succ_r. apply Z.div_lt_upper_bound; unfold s; lia. }
    destruct (IH ys (s / 2 ^ 62) Hq) as (I1 & I2 & I3); [assumption | assumption | assumption |].
    split; [cbn [length]; rewrite I1; reflexivity |]. split; [constructor; [apply mod62 | exact I2] |].
    rewrite !digits_cons, I3. cbn [length].
    replace (digits 62 xs + digits 62 ys + s / 2 ^ 62) with (s / 2 ^ 62 + (digits 62 xs + digits 62 ys)) by lia.
    rewrite chunk_step. f_equal. unfold s. lia.
Qed.
Lemma neg_carry_ok xs : forall c, 0 <= c <= 1 -> in_base 62 xs ->
  length (neg_carry c xs) = length xs /\ in_base 62 (neg_carry c xs) /\
  digits 62 (neg_carry c xs) = (- 1 - digits 62 xs + c) mod 2 ^ (62 * Z.of_nat (length xs)).
Proof.
  induction xs as [|x xs IH]; intros c Hc Hx.
  - split; [reflexivity |]. split; [constructor |]. cbn [neg_carry digits fold_right length]. rewrite Z.mod_1_r. reflexivity.
  - inversion_clear Hx. cbn [neg_carry]. cbv zeta. rewrite lxor_mask by assumption.
    assert (HM : MASK = 2 ^ 62 - 1) by reflexivity.
    rewrite u64_small by lia. set (s := MASK - x + c). rewrite land_mask, shiftr62.
    assert (Hq : 0 <= s / 2 ^ 62 <= 1).
    { split; [apply Z.div_pos; unfold s; lia |]. apply Z.lt_succ_r. apply Z.div_lt_upper_bound; unfold s; lia. }
    destruct (IH (s / 2 ^ 62) Hq) as (I1 & I2 & I3); [assumption |].
    split; [cbn [length]; rewrite I1; reflexivity |]. split; [constructor; [apply mod62 | exact I2] |].
    rewrite !digits_cons, I3. cbn [length].
    replace (- 1 - digits 62 xs + s / 2 ^ 62) with (s / 2 ^ 62 + (- 1 - digits 62 xs)) by lia.
    rewrite chunk_step. f_equal. unfold s. lia.
Qed.
Lemma lxor_mask_or mask x : (mask = 0 \/ mask = MASK) -> 0 <= x < 2 ^ 62 ->
  Z.lxor x mask = (if mask =? 0 then x else MASK - x) /\ 0 <= Z.lxor x mask < 2 ^ 62.
Proof.
  intros [-> | ->] H.
  - rewrite Z.lxor_0_r. split; [reflexivity | exact H].
  - rewrite lxor_mask by exact H. split; [reflexivity | unfold MASK; lia].
Qed.
Lemma mul_carry_ok mask other xs : (mask = 0 \/ mask = MASK) -> 0 <= other <= 2 ^ 63 ->
  forall c, 0 <= c <= 2 ^ 63 -> in_base 62 xs ->
  length (mul_carry mask other c xs) = length xs /\ in_base 62 (mul_carry mask other c xs) /\
  digits 62 (mul_carry mask other c xs) =
    ((if mask =? 0 then digits 62 xs else - 1 - digits 62 xs) * other + c) mod 2 ^ (62 * Z.of_nat (length xs)).
Proof.
  intros Hm Ho. induction xs as [|x xs IH]; intros c Hc Hx.
  - split; [reflexivity |]. split; [constructor |]. cbn [mul_carry digits fold_right length]. rewrite Z.mod_1_r. reflexivity.
  - inversion_clear Hx. cbn [mul_carry]. cbv zeta. destruct (lxor_mask_or mask x Hm) as [Hv Hb]; [assumption |].
    set (v := Z.lxor x mask) in *.
    assert (Hs : 0 <= v * other + c <= 2 ^ 125) by nia.
    rewrite (Z.mod_small (v * other + c)) by lia. set (s := v * other + c) in *. rewrite land_mask, shiftr62.
    assert (Hq : 0 <= s / 2 ^ 62 <= 2 ^ 63).
    { split; [apply Z.div_pos; lia |]. apply Z.div_le_upper_bound; lia. }
    pose proof (mod62 s). rewrite (u64_small (s mod 2 ^ 62)), (u64_small (s / 2 ^ 62)) by lia.
    destruct (IH (s / 2 ^ 62) Hq) as (I1 & I2 & I3); [assumption |].
    split; [cbn [length]; rewrite I1; reflexivity |]. split; [constructor; [apply mod62 | exact I2] |].
    rewrite !digits_cons, I3. cbn [length]. rewrite (Z.add_comm _ (s / 2 ^ 62)), chunk_step.
    destruct Hm as [-> | ->].
    + cbn [Z.eqb] in *. f_equal. unfold s. rewrite Hv. lia.
    + replace (MASK =? 0) with false in * by reflexivity.
      f_equal. unfold s. rewrite Hv. unfold MASK. lia.
Qed.

(** ** Representations. *)
Section Rep.
Variable n : nat.
Notation P := (2 ^ (62 * Z.of_nat n)).
Lemma rep_add l l' z z' : represents n l z -> represents n l' z' -> represents n (c_add l l') (z + z').
Proof.
  intros (H1 & H2 & H3) (K1 & K2 & K3). destruct (add_carry_ok l l' 0) as (A1 & A2 & A3); [lia | assumption | assumption | congruence |].
  split; [unfold c_add; congruence |]. split; [exact A2 |]. unfold c_add. rewrite A3, H1, H3, K3, Z.add_0_r.
  symmetry. apply Z.add_mod. pose proof (pow62_pos n). lia.
Qed.
Lemma rep_neg l z : represents n l z -> represents n (c_neg l) (- z).
Proof.
  intros (H1 & H2 & H3). destruct (neg_carry_ok l 1) as (A1 & A2 & A3); [lia | assumption |].
  split; [unfold c_neg; congruence |]. split; [exact A2 |]. unfold c_neg. rewrite A3, H1, H3. pose proof (pow62_pos n).
  replace (- 1 - z mod P + 1) with (0 - z mod P) by lia. rewrite Zminus_mod_idemp_r. f_equal.
Qed.
Lemma i64_small z : - 2 ^ 63 <= z < 2 ^ 63 -> i64 z = z.
Proof. intros. unfold i64. rewrite Z.mod_small; lia. Qed.
Lemma rep_mul l z t : represents n l z -> - 2 ^ 63 < t < 2 ^ 63 -> represents n (c_mul l t) (z * t).
Proof.
  intros (H1 & H2 & H3) Ht. pose proof (pow62_pos n) as HP. unfold c_mul. destruct (Z.ltb_spec t 0).
  - rewrite i64_small by lia. rewrite u64_small by lia.
    destruct (mul_carry_ok MASK (- t) l (or_intror eq_refl)) with (c := - t) as (A1 & A2 & A3); [lia | lia | assumption |].
    split; [congruence |]. split; [exact A2 |]. rewrite A3, H1, H3. replace (MASK =? 0) with false by reflexivity.
    replace ((-1 - z mod P) * - t + - t) with (z mod P * t) by ring. apply Z.mul_mod_idemp_l. lia.
  - destruct (mul_carry_ok 0 t l (or_introl eq_refl)) with (c := 0) as (A1 & A2 & A3); [lia | lia | assumption |].
    split; [congruence |]. split; [exact A2 |]. rewrite A3, H1, H3. cbn [Z.eqb]. rewrite Z.add_0_r. apply Z.mul_mod_idemp_l. lia.
Qed.
Lemma rep_lowest l z : (0 < n)%nat -> represents n l z -> lowest l = z mod 2 ^ 62.
Proof.
  intros Hn (H1 & H2 & H3). destruct l as [|x r]; [cbn in H1; lia |]. cbn [lowest nth]. inversion_clear H2.
  rewrite digits_cons in H3. destruct n as [|m]; [lia |]. rewrite pow62 in H3. pose proof (pow62_pos m).
  assert (E : (x + 2 ^ 62 * digits 62 r) mod 2 ^ 62 = (z mod (2 ^ 62 * 2 ^ (62 * Z.of_nat m))) mod 2 ^ 62) by (rewrite H3; reflexivity).
  rewrite Z.rem_mul_r in E by lia. rewrite (Z.mul_comm (2 ^ 62)), Z.mod_add, Z.mod_small in E by lia.
  rewrite E, (Z.mul_comm (2 ^ 62)), Z.mod_add by lia. symmetry. rewrite Z.mod_mod by lia. reflexivity.
Qed.
End Rep.

Lemma digits_bound l : in_base 62 l -> 0 <= digits 62 l < 2 ^ (62 * Z.of_nat (length l)).
Proof.
  induction l as [|x r IH]; intros H.
  - cbn [digits fold_right length]. change (2 ^ (62 * Z.of_nat 0)) with 1. lia.
  - inversion_clear H. specialize (IH H1). rewrite digits_cons. cbn [length]. rewrite pow62. nia.
Qed.
Lemma digits_app l r : digits 62 (l ++ r) = digits 62 l + 2 ^ (62 * Z.of_nat (length l)) * digits 62 r.
Proof.
  induction l as [|x l IH]; [cbn [app length]; change (2 ^ (62 * Z.of_nat 0)) with 1; change (digits 62 []) with 0; lia |].
  cbn [app length]. rewrite !digits_cons, IH, pow62. ring.
Qed.
Lemma digits_inj l : forall r, in_base 62 l -> in_base 62 r -> length l = length r -> digits 62 l = digits 62 r -> l = r.
Proof.
  induction l as [|x l IH]; intros [|y r] Hl Hr E D; try discriminate; [reflexivity |].
  inversion_clear Hl. inversion_clear Hr. rewrite !digits_cons in D. injection E as E.
  assert (x = y).
  { rewrite <- (Z.mod_small x (2 ^ 62)), <- (Z.mod_small y (2 ^ 62)) by assumption.
    rewrite <- (Z.mod_add x (digits 62 l)), <- (Z.mod_add y (digits 62 r)) by lia. f_equal. lia. }
  subst. f_equal. apply IH; try assumption. lia.
Qed.
Lemma c_eqb_eq l : forall r, length l = length r -> c_eqb l r = true <-> l = r.
Proof.
  induction l as [|x l IH]; intros [|y r] E; try discriminate; [split; reflexivity |].
  injection E as E. cbn [c_eqb]. rewrite andb_true_iff, Z.eqb_eq, IH by exact E. split; [intros [-> ->]; reflexivity | intros H; injection H; auto].
Qed.

Section Range.
Variable m : nat.
Notation n := (S m).
Notation P := (2 ^ (62 * Z.of_nat (S m))).
Lemma half : P = 2 * 2 ^ (62 * Z.of_nat (S m) - 1).
Proof. replace (62 * Z.of_nat (S m)) with (1 + (62 * Z.of_nat (S m) - 1)) at 1 by lia. rewrite Z.pow_add_r by lia. reflexivity. Qed.
Lemma half_split : 2 ^ (62 * Z.of_nat (S m) - 1) = 2 ^ 61 * 2 ^ (62 * Z.of_nat m).
Proof. rewrite <- Z.pow_add_r by lia. f_equal. lia. Qed.
Lemma mod_range z : representable n z -> z mod P = if z <? 0 then z + P else z.
Proof.
  unfold representable. intros H. pose proof half as Hh. destruct (Z.ltb_spec z 0).
  - symmetry. apply (Z.mod_unique _ _ (-1)); lia.
  - apply Z.mod_small. lia.
Qed.
Lemma rep_inj l l' z z' : represents n l z -> represents n l' z' -> representable n z -> representable n z' ->
  (l = l' <-> z = z').
Proof.
  intros (H1 & H2 & H3) (K1 & K2 & K3) Hz Hz'. split.
  - intros ->. rewrite H3 in K3. rewrite !mod_range in K3 by assumption. pose proof half. unfold representable in *.
    destruct (Z.ltb_spec z 0), (Z.ltb_spec z' 0); lia.
  - intros ->. apply digits_inj; congruence.
Qed.
Lemma rep_eqb l l' z z' : represents n l z -> represents n l' z' -> representable n z -> representable n z' ->
  c_eqb l l' = (z =? z').
Proof.
  intros R R' Hz Hz'. apply eq_true_iff_eq. rewrite Z.eqb_eq, c_eqb_eq by (destruct R, R'; congruence). apply rep_inj; assumption.
Qed.
Lemma split_last (l : list Z) : length l = n -> exists r t, l = r ++ [t] /\ length r = m.
Proof.
  intros H. destruct (exists_last (l := l)) as (r & t & ->); [intros ->; discriminate |].
  exists r, t. split; [reflexivity |]. rewrite app_length in H. cbn in H. lia.
Qed.
Lemma rep_negative l z : represents n l z -> representable n z -> is_negative l = (z <? 0).
Proof.
  intros (H1 & H2 & H3) Hz. destruct (split_last l H1) as (r & t & -> & Hr).
  unfold is_negative. rewrite H1. replace (n - 1)%nat with m by lia. rewrite app_nth2 by lia. rewrite Hr, Nat.sub_diag. cbn [nth].
  apply Forall_app in H2. destruct H2 as [B1 B2]. inversion_clear B2.
  rewrite digits_app in H3. cbn [digits fold_right] in H3. rewrite mod_range in H3 by exact Hz. rewrite Hr in H3.
  pose proof (digits_bound r B1) as D. rewrite Hr in D. pose proof half as Hh. pose proof half_split as Hs. pose proof (pow62_pos m).
  unfold representable in Hz. change (Z.shiftr MASK 1) with (2 ^ 61 - 1).
  fold (digits 62 r) in H3.
  destruct (Z.ltb_spec z 0); [apply Z.ltb_lt | apply Z.ltb_ge]; nia.
Qed.
Lemma rep_shift l z : represents n l z -> representable n z -> represents n (c_shift l) (z / 2 ^ 62).
Proof.
  intros R Hz. pose proof (rep_negative l z R Hz) as Ng. destruct R as (H1 & H2 & H3).
  destruct l as [|x r]; [discriminate |]. unfold c_shift. rewrite Ng. cbn [tl]. inversion_clear H2. injection H1 as H1.
  split; [rewrite app_length; cbn [length]; lia |].
  split; [apply Forall_app; split; [assumption | constructor; [destruct (z <? 0); unfold MASK; lia | constructor]] |].
  rewrite digits_app, H1. cbn [digits fold_right]. fold (digits 62 r). rewrite digits_cons in H3.
  assert (Dr : digits 62 r = (z mod P) / 2 ^ 62).
  { rewrite <- H3, (Z.mul_comm (2 ^ 62)), Z.div_add, Z.div_small by lia. reflexivity. }
  rewrite Dr, mod_range by exact Hz. pose proof (pow62_pos m). pose proof half as Hh. unfold representable in Hz.
  rewrite pow62. pose proof (pow62 m) as HP. destruct (Z.ltb_spec z 0).
  - rewrite (Z.mul_comm (2 ^ 62) (2 ^ (62 * Z.of_nat m))), Z.div_add by lia. unfold MASK.
    apply (Z.mod_unique _ _ (-1)); [| lia]. left.
    assert (z / 2 ^ 62 < 0) by (apply Z.div_lt_upper_bound; lia).
    assert (- 2 ^ (62 * Z.of_nat m) <= z / 2 ^ 62) by (apply Z.div_le_lower_bound; nia). nia.
  - rewrite Z.mod_small; [lia |]. split; [apply Z.div_pos; lia |]. apply Z.div_lt_upper_bound; nia.
Qed.
End Range.
