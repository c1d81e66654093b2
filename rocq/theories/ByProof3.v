(** Changing the chunk size. *)
From Coq Require Import ZArith List Bool Lia Arith.
From Verif Require Import ByModel BySpec ByProof ByProof2.
Import ListNotations.
Open Scope Z_scope.

Lemma tb_high x b p : 0 <= x < 2 ^ b -> b <= p -> 0 <= b -> Z.testbit x p = false.
Proof. intros H Hp Hb. rewrite <- (Z.mod_small x (2 ^ b)) by lia. apply Z.mod_pow2_bits_high. lia. Qed.
Lemma digits_nonneg b l : 0 <= b -> in_base b l -> 0 <= digits b l.
Proof.
  intros Hb. induction l as [|x r IH]; intros H; [cbn; lia |]. inversion_clear H. rewrite digits_cons.
  pose proof (Z.pow_pos_nonneg 2 b ltac:(lia) Hb). specialize (IH H1). nia.
Qed.
Lemma digits_testbit b l : (0 < b)%nat -> in_base (Z.of_nat b) l -> forall p,
  Z.testbit (digits (Z.of_nat b) l) (Z.of_nat p) = Z.testbit (nth (p / b) l 0) (Z.of_nat (p mod b)).
Proof.
  intros Hb. induction l as [|x r IH]; intros H p.
  - cbn [digits fold_right]. rewrite Z.bits_0. destruct (p / b)%nat; cbn [nth]; rewrite Z.bits_0; reflexivity.
  - inversion_clear H. rewrite digits_cons. destruct (Nat.lt_ge_cases p b).
    + rewrite Nat.div_small, Nat.mod_small by assumption. cbn [nth].
      rewrite <- (Z.mod_pow2_bits_low _ (Z.of_nat b)) by lia.
      rewrite Z.mul_comm, Z.mod_add by (apply Z.pow_nonzero; lia). rewrite Z.mod_small by assumption. reflexivity.
    + replace p with ((p - b) + 1 * b)%nat by lia. rewrite Nat.div_add, Nat.mod_add by lia. rewrite Nat.add_1_r. cbn [nth].
      rewrite <- IH by assumption. rewrite Nat.mul_1_l, Nat2Z.inj_add.
      rewrite <- Z.div_pow2_bits by lia. rewrite (Z.mul_comm (2 ^ _)), Z.div_add by (apply Z.pow_nonzero; lia).
      rewrite Z.div_small by assumption. reflexivity.
Qed.
Lemma nth_upd l : forall i f j, nth j (upd l i f) 0 = if (j =? i)%nat && (i <? length l)%nat then f (nth j l 0) else nth j l 0.
Proof.
  induction l as [|x r IH]; intros i f j; [cbn; rewrite andb_false_r; reflexivity |].
  destruct i as [|i], j as [|j]; cbn [upd nth length]; try reflexivity. rewrite IH. reflexivity.
Qed.
Lemma upd_length l : forall i f, length (upd l i f) = length l.
Proof. induction l as [|x r IH]; intros [|i] f; cbn; congruence. Qed.

Section Conv.
Variables I O : nat.
Hypothesis HI : (0 < I <= 64)%nat.
Hypothesis HO : (0 < O <= 64)%nat.
Variable input : list Z.
Hypothesis Hin : in_base (Z.of_nat I) input.
Variable osize : nat.
Notation V := (digits (Z.of_nat I) input).
Notation total := (Nat.min (length input * I) (osize * O)).

Record cinv (bits : nat) (out : list Z) : Prop := mkc {
  c_len : length out = osize;
  c_nn : forall j, 0 <= nth j out 0;
  c_bits : forall j q, (q < O)%nat -> (j < osize)%nat ->
    Z.testbit (nth j out 0) (Z.of_nat q) = if (j * O + q <? bits)%nat then Z.testbit V (Z.of_nat (j * O + q)) else false;
  c_zero : forall j, (bits <= j * O)%nat -> nth j out 0 = 0
}.
Lemma in_range j : 0 <= nth j input 0 < 2 ^ Z.of_nat I.
Proof.
  destruct (Nat.lt_ge_cases j (length input)).
  - unfold in_base in Hin. rewrite Forall_forall in Hin. apply Hin. apply nth_In. assumption.
  - rewrite nth_overflow by assumption. split; [lia |]. apply Z.pow_pos_nonneg; lia.
Qed.
Lemma cstep bits out : (bits < total)%nat -> cinv bits out ->
  let i := (bits mod I)%nat in let o := (bits mod O)%nat in
  let bits' := (bits + Nat.min (I - i) (O - o))%nat in
  (bits < bits' <= total)%nat /\
  cinv bits' (upd out (bits / O) (fun w => Z.lor w (u64 (Z.shiftl (Z.shiftr (nth (bits / I) input 0) (Z.of_nat i)) (Z.of_nat o))))).
Proof.
  intros Hb [L NN B Zr] i o bits'.
  pose proof (Nat.mod_upper_bound bits I ltac:(lia)) as Hi. pose proof (Nat.mod_upper_bound bits O ltac:(lia)) as Ho. fold i in Hi. fold o in Ho.
  pose proof (Nat.div_mod bits I ltac:(lia)) as EI. pose proof (Nat.div_mod bits O ltac:(lia)) as EO. fold i in EI. fold o in EO.
  set (a := (bits / I)%nat) in *. set (c := (bits / O)%nat) in *.
  assert (Ha : (a < length input)%nat) by (apply Nat.div_lt_upper_bound; lia).
  assert (Hc : (c < osize)%nat) by (apply Nat.div_lt_upper_bound; lia).
  assert (Hb' : (bits < bits' <= total)%nat).
  { unfold bits'. split; [lia |]. apply Nat.min_glb; [assert ((a + 1) * I <= length input * I)%nat by (apply Nat.mul_le_mono_r; lia); lia |].
    assert ((c + 1) * O <= osize * O)%nat by (apply Nat.mul_le_mono_r; lia). lia. }
  split; [exact Hb' |].
  set (word := u64 (Z.shiftl (Z.shiftr (nth a input 0) (Z.of_nat i)) (Z.of_nat o))).
  assert (Wb : forall q, (q < O)%nat -> Z.testbit word (Z.of_nat q) =
    if (o <=? q)%nat && (q <? o + (I - i))%nat then Z.testbit V (Z.of_nat (c * O + q)) else false).
  { intros q Hq. unfold word, u64. rewrite Z.mod_pow2_bits_low by lia. rewrite Z.shiftl_spec by lia.
    destruct (Nat.leb_spec o q); cbn [andb].
    - rewrite Z.shiftr_spec by lia. destruct (Nat.ltb_spec q (o + (I - i))).
      + replace (c * O + q)%nat with ((i + (q - o)) + a * I)%nat by lia. rewrite digits_testbit by (lia || assumption).
        rewrite Nat.div_add, Nat.mod_add by lia. rewrite Nat.div_small, Nat.mod_small by lia. cbn [Nat.add]. f_equal. lia.
      + apply (tb_high _ (Z.of_nat I)); [apply in_range | lia | lia].
    - apply Z.testbit_neg_r. lia. }
  assert (Wn : 0 <= word) by apply u64_range. clearbody word.
  constructor.
  - rewrite upd_length. exact L.
  - intros j. rewrite nth_upd. destruct (_ && _); [| apply NN]. apply Z.lor_nonneg. split; [apply NN | exact Wn].
  - intros j q Hq Hj. rewrite nth_upd. rewrite L. replace (c <? osize)%nat with true by (symmetry; apply Nat.ltb_lt; exact Hc).
    rewrite andb_true_r. destruct (Nat.eqb_spec j c) as [-> | Hne].
    + rewrite Z.lor_spec, B, Wb by assumption.
      destruct (Nat.ltb_spec (c * O + q) bits), (Nat.leb_spec o q), (Nat.ltb_spec q (o + (I - i))), (Nat.ltb_spec (c * O + q) bits');
        cbn [andb orb]; try reflexivity; try rewrite orb_false_r; try reflexivity; unfold bits' in *; try lia.
    + rewrite B by assumption. destruct (Nat.lt_ge_cases j c).
      * assert ((j + 1) * O <= c * O)%nat by (apply Nat.mul_le_mono_r; lia).
        destruct (Nat.ltb_spec (j * O + q) bits), (Nat.ltb_spec (j * O + q) bits'); try reflexivity; lia.
      * assert ((c + 1) * O <= j * O)%nat by (apply Nat.mul_le_mono_r; lia).
        destruct (Nat.ltb_spec (j * O + q) bits), (Nat.ltb_spec (j * O + q) bits'); try reflexivity; unfold bits' in *; lia.
  - intros j Hj. rewrite nth_upd. destruct (Nat.eqb_spec j c) as [-> | Hne]; [unfold bits' in *; lia |]. cbn [andb]. apply Zr. lia.
Qed.
Lemma cloop fuel : forall bits out, (bits <= total)%nat -> (total - bits <= fuel)%nat -> cinv bits out ->
  cinv total (convert_loop fuel I O total bits input out).
Proof.
  induction fuel as [|fuel IH]; intros bits out Hb Hf Hc; cbn [convert_loop].
  - replace total with bits by lia. exact Hc.
  - destruct (Nat.ltb_spec bits total) as [Hlt | Hge]; [| replace total with bits by lia; exact Hc].
    destruct (cstep bits out Hlt Hc) as [Hb' Hc']. cbv zeta. apply IH; [lia | lia | exact Hc'].
Qed.
Lemma convert_ok : length (convert I O input osize) = osize /\ in_base (Z.of_nat O) (convert I O input osize) /\
  digits (Z.of_nat O) (convert I O input osize) = V mod 2 ^ (Z.of_nat O * Z.of_nat osize).
Proof.
  unfold convert. cbv zeta. set (tot := total). set (filled := ((tot + O - 1) / O)%nat).
  assert (C0 : cinv 0 (repeat 0 osize)).
  { assert (Z0 : forall j, nth j (repeat 0 osize) 0 = 0) by (intros j; apply nth_repeat).
    constructor; [apply repeat_length | intros j; rewrite Z0; lia | | intros j _; apply Z0].
    intros j q _ _. rewrite Z0, Z.bits_0. reflexivity. }
  pose proof (cloop tot 0 (repeat 0 osize) ltac:(lia) ltac:(unfold tot; lia) C0) as C. fold tot in C.
  set (out := convert_loop tot I O tot 0 input (repeat 0 osize)) in *. clearbody out. clear C0. destruct C as [L NN B Zr].
  set (res := map _ (firstn filled out) ++ skipn filled out).
  pose proof (Nat.div_mod (tot + O - 1) O ltac:(lia)) as EF. fold filled in EF.
  pose proof (Nat.mod_upper_bound (tot + O - 1) O ltac:(lia)) as HF.
  assert (Hfill : (filled <= osize)%nat) by (apply Nat.lt_succ_r; apply Nat.div_lt_upper_bound; [lia |]; unfold tot; lia).
  assert (Lr : length res = osize).
  { unfold res. rewrite app_length, map_length, firstn_length, skipn_length. lia. }
  assert (Nr : forall j, (j < osize)%nat -> nth j res 0 = (nth j out 0) mod 2 ^ Z.of_nat O).
  { intros j Hj. unfold res. destruct (Nat.lt_ge_cases j filled).
    - rewrite app_nth1 by (rewrite map_length, firstn_length; lia).
      rewrite <- (firstn_skipn filled out) at 2. rewrite (app_nth1 (firstn filled out)) by (rewrite firstn_length; lia).
      set (g := fun w => Z.land w (2 ^ Z.of_nat O - 1)). change 0 with (g 0) at 1. rewrite map_nth. unfold g.
      replace (2 ^ Z.of_nat O - 1) with (Z.ones (Z.of_nat O)) by (rewrite Z.ones_equiv; lia). apply Z.land_ones. lia.
    - rewrite app_nth2 by (rewrite map_length, firstn_length; lia).
      rewrite map_length, firstn_length, L, Nat.min_l by lia.
      assert (E : nth j out 0 = 0). { apply Zr. assert (filled * O <= j * O)%nat by (apply Nat.mul_le_mono_r; lia). lia. }
      rewrite E, Z.mod_0_l by (apply Z.pow_nonzero; lia).
      rewrite <- (firstn_skipn filled out) in E. rewrite app_nth2 in E by (rewrite firstn_length; lia).
      rewrite firstn_length, L, Nat.min_l in E by lia. exact E. }
  assert (Ib : in_base (Z.of_nat O) res).
  { unfold in_base. rewrite Forall_forall. intros w Hw. apply (In_nth _ _ 0) in Hw. destruct Hw as (j & Hj & <-). rewrite Lr in Hj.
    rewrite Nr by exact Hj. apply Z.mod_pos_bound. apply Z.pow_pos_nonneg; lia. }
  split; [exact Lr |]. split; [exact Ib |].
  apply Z.bits_inj'. intros p Hp. rewrite <- (Z2Nat.id p) by exact Hp. set (k := Z.to_nat p). clearbody k. clear p Hp.
  rewrite digits_testbit by (lia || exact Ib).
  pose proof (Nat.div_mod k O ltac:(lia)) as EK. pose proof (Nat.mod_upper_bound k O ltac:(lia)) as HK.
  set (j := (k / O)%nat) in *. set (q := (k mod O)%nat) in *.
  destruct (Nat.lt_ge_cases j osize) as [Hj | Hj].
  - assert ((j + 1) * O <= osize * O)%nat by (apply Nat.mul_le_mono_r; lia).
    rewrite Z.mod_pow2_bits_low by lia. rewrite Nr, Z.mod_pow2_bits_low by lia. rewrite B by lia.
    replace (j * O + q)%nat with k by lia. destruct (Nat.ltb_spec k tot); [reflexivity |].
    rewrite digits_testbit by (lia || assumption). rewrite nth_overflow; [rewrite Z.bits_0; reflexivity |].
    apply Nat.div_le_lower_bound; [lia |]. unfold tot in *. lia.
  - rewrite nth_overflow by lia. rewrite Z.bits_0. symmetry. apply Z.mod_pow2_bits_high.
    assert (osize * O <= j * O)%nat by (apply Nat.mul_le_mono_r; lia). lia.
Qed.
End Conv.

(** ** Load and Save. *)
Lemma load_ok l n : in_base 64 l -> represents n (load l n) (digits 64 l).
Proof.
  intros H. destruct (convert_ok 64 62 ltac:(lia) ltac:(lia) l H n) as (A & B & C). split; [exact A |]. split; [exact B | exact C].
Qed.
Lemma load_int_nonneg z n : 0 <= z < 2 ^ 63 -> represents n (load_int z n) z.
Proof.
  intros H. unfold load_int. replace (z <? 0) with false by (symmetry; apply Z.ltb_ge; lia). rewrite andb_false_r.
  rewrite u64_small by lia. replace z with (digits 64 [z]) at 2 by (rewrite digits_cons; change (digits 64 []) with 0; lia).
  apply load_ok. constructor; [lia | constructor].
Qed.
Lemma digits_ones n : digits 62 (repeat MASK n) = 2 ^ (62 * Z.of_nat n) - 1 /\ in_base 62 (repeat MASK n).
Proof.
  induction n as [|n [IH1 IH2]]; [split; [reflexivity | constructor] |]. cbn [repeat]. rewrite digits_cons, IH1, pow62.
  split; [unfold MASK; ring | constructor; [unfold MASK; lia | exact IH2]].
Qed.
Lemma load_int_minus n : (2 <= n)%nat -> represents n (load_int (-1) n) (-1).
Proof.
  intros H. destruct n as [|[|k]]; [lia | lia |]. set (n := S (S k)) in *.
  assert (E : load_int (-1) n = repeat MASK n).
  { unfold load_int. replace (Nat.ltb 64 (62 * n) && (-1 <? 0)) with true by (symmetry; apply andb_true_iff; split; [apply Nat.ltb_lt; unfold n; lia | reflexivity]).
    change (u64 (-1)) with (2 ^ 64 - 1).
    destruct (load_ok [2 ^ 64 - 1] n) as (A & B & C); [constructor; [lia | constructor] |]. unfold load in A, B, C.
    assert (Z0 : digits 62 (repeat 0 k) = 0 /\ in_base 62 (repeat 0 k)).
    { clear. induction k as [|k [I1 I2]]; [split; [reflexivity | constructor] |]. cbn [repeat]. rewrite digits_cons, I1.
      split; [reflexivity | constructor; [lia | exact I2]]. }
    replace (convert 64 62 [2 ^ 64 - 1] n) with (MASK :: 3 :: repeat 0 k).
    - change (n - 2)%nat with (S (S k) - 2)%nat. replace (S (S k) - 2)%nat with k by lia. reflexivity.
    - symmetry. apply digits_inj; [exact B | constructor; [unfold MASK; lia | constructor; [lia | apply Z0]] | |].
      + rewrite A. unfold n. cbn [length]. rewrite repeat_length. reflexivity.
      + rewrite C. rewrite !digits_cons. destruct Z0 as [-> _]. change (digits 64 []) with 0. unfold n. rewrite !pow62.
        pose proof (pow62_pos k). rewrite Z.mod_small; [unfold MASK; lia |]. nia. }
  rewrite E. destruct (digits_ones n) as [D1 D2]. split; [apply repeat_length |]. split; [exact D2 |].
  rewrite D1. apply (Z.mod_unique _ _ (-1)); [pose proof (pow62_pos n); lia | lia].
Qed.
Lemma save_ok m xs z N : represents (S m) xs z -> representable (S m) z -> 0 <= z ->
  length (save xs N) = N /\ in_base 64 (save xs N) /\ digits 64 (save xs N) = z mod 2 ^ (64 * Z.of_nat N).
Proof.
  intros R Rg Hz. unfold save. rewrite (rep_negative m xs z R Rg). replace (z <? 0) with false by (symmetry; apply Z.ltb_ge; lia).
  destruct R as (A & B & C). destruct (convert_ok 62 64 ltac:(lia) ltac:(lia) xs B N) as (A' & B' & C').
  split; [exact A' |]. split; [exact B' |]. change (Z.of_nat 64) with 64 in C'. rewrite C'. change (Z.of_nat 62) with 62. rewrite C.
  rewrite mod_range by exact Rg. replace (z <? 0) with false by (symmetry; apply Z.ltb_ge; lia). reflexivity.
Qed.
