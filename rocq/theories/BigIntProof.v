(** Proofs about the big-integer model: addition, subtraction, multiplication, comparison, shifts. *)
From Coq Require Import ZArith List Bool Lia.
From Coq Require Import ZifyBool ZifyNat.
From Verif Require Import BigIntModel BigIntSpec.
Import ListNotations.
Open Scope Z_scope.

Lemma pow2_pos w : 0 <= w -> 0 < 2 ^ w.
Proof. intros H. apply Z.pow_pos_nonneg; lia. Qed.

Lemma pow_mul w n : 0 <= w -> 2 ^ (w * Z.of_nat (S n)) = 2 ^ w * 2 ^ (w * Z.of_nat n).
Proof. intros H. rewrite <- Z.pow_add_r by nia. f_equal. nia. Qed.

(** ** Limb vectors *)
Lemma limbs_nil w n : limbs w n [] -> n = O.
Proof. intros [H _]. simpl in H. lia. Qed.
Lemma limbs_cons w n x l : limbs w (S n) (x :: l) <-> 0 <= x < 2 ^ w /\ limbs w n l.
Proof.
  unfold limbs. simpl. split.
  - intros [H1 H2]. inversion H2; subst. repeat split; try lia; auto.
  - intros [Hx [H1 H2]]. split; [lia | constructor; auto].
Qed.
Lemma limbs_O w l : limbs w O l <-> l = [].
Proof. unfold limbs; split; [intros [H _]; destruct l; simpl in *; congruence | intros ->; split; auto]. Qed.
Lemma limbs_length w n l : limbs w n l -> length l = n.
Proof. intros [H _]; exact H. Qed.
Lemma limbs_cons_inv w n x l :
  limbs w n (x :: l) -> exists n', n = S n' /\ 0 <= x < 2 ^ w /\ limbs w n' l.
Proof.
  intros H. destruct n as [|n']. { destruct H as [H _]; discriminate H. }
  apply limbs_cons in H. eauto.
Qed.
Lemma limbs_S w n l : limbs w (S n) l ->
  exists x l', l = x :: l' /\ 0 <= x < 2 ^ w /\ limbs w n l'.
Proof.
  intros H. destruct l as [|x l']. { destruct H as [H _]; discriminate H. }
  apply limbs_cons in H. destruct H. eauto 6.
Qed.

Lemma val_bound w n l : 0 <= w -> limbs w n l -> 0 <= val w l < 2 ^ (w * Z.of_nat n).
Proof.
  intros Hw. revert n. induction l as [|x l IH]; intros n H.
  - apply limbs_nil in H. subst. simpl. rewrite Z.mul_0_r. simpl. lia.
  - apply limbs_cons_inv in H. destruct H as (n' & -> & Hx & Hl).
    specialize (IH _ Hl). cbn [val]. rewrite pow_mul by lia.
    pose proof (pow2_pos w Hw). nia.
Qed.

Lemma val_inj w n a b : 0 <= w -> limbs w n a -> limbs w n b -> val w a = val w b -> a = b.
Proof.
  intros Hw. revert a b. induction n as [|n IH]; intros a b Ha Hb E.
  - apply limbs_O in Ha, Hb. congruence.
  - apply limbs_S in Ha. destruct Ha as (x & a' & -> & Hx & Ha).
    apply limbs_S in Hb. destruct Hb as (y & b' & -> & Hy & Hb).
    cbn [val] in E. pose proof (pow2_pos w Hw) as HB.
    assert (x = y /\ val w a' = val w b') as [-> E2].
    { set (B := 2 ^ w) in *.
      assert (x = (x + B * val w a') mod B) as Ex.
      { rewrite Z.mul_comm, Z.mod_add by lia. symmetry; apply Z.mod_small; lia. }
      assert (y = (y + B * val w b') mod B) as Ey.
      { rewrite Z.mul_comm, Z.mod_add by lia. symmetry; apply Z.mod_small; lia. }
      rewrite E, <- Ey in Ex. split; [exact Ex|]. subst. nia. }
    f_equal. apply IH; auto.
Qed.

Lemma val_app w a b : 0 <= w -> val w (a ++ b) = val w a + 2 ^ (w * Z.of_nat (length a)) * val w b.
Proof.
  intros Hw. induction a as [|x a IH].
  - cbn [app val length]. rewrite Z.mul_0_r. change (2 ^ 0) with 1. lia.
  - cbn [app val]. rewrite IH. cbn [length]. rewrite pow_mul by lia. ring.
Qed.
Lemma val_repeat0 w n : val w (repeat 0 n) = 0.
Proof. induction n as [|n IH]; simpl; rewrite ?IH; lia. Qed.
Lemma val_map0 w (l : list Z) : val w (map (fun _ => 0) l) = 0.
Proof. induction l as [|x l IH]; simpl; rewrite ?IH; lia. Qed.
Lemma limbs_repeat0 w n : 0 <= w -> limbs w n (repeat 0 n).
Proof.
  intros Hw. split; [apply repeat_length|]. apply Forall_forall. intros x Hx.
  apply repeat_spec in Hx. subst. pose proof (pow2_pos w Hw). lia.
Qed.
Lemma limbs_map0 w n (l : list Z) : 0 <= w -> length l = n -> limbs w n (map (fun _ => 0) l).
Proof.
  intros Hw H. split; [rewrite map_length; exact H|]. apply Forall_forall. intros x Hx.
  apply in_map_iff in Hx. destruct Hx as (? & <- & _). pose proof (pow2_pos w Hw). lia.
Qed.
Lemma limbs_app w n m a b : limbs w n a -> limbs w m b -> limbs w (n + m) (a ++ b).
Proof.
  intros [H1 H2] [H3 H4]. split; [rewrite app_length; lia | apply Forall_app; auto].
Qed.

(** ** Word primitives *)
Lemma div_mod_split B x : 0 < B -> x = x mod B + B * (x / B).
Proof. intros H. pose proof (Z.div_mod x B). lia. Qed.

Lemma trunc_range w x : 0 <= w -> 0 <= trunc w x < 2 ^ w.
Proof. intros Hw. unfold trunc. apply Z.mod_pos_bound. apply pow2_pos; lia. Qed.

Lemma double_width w : 0 <= w -> 2 ^ (2 * w) = 2 ^ w * 2 ^ w.
Proof. intros. rewrite <- Z.pow_add_r by lia. f_equal; lia. Qed.

Lemma add_with_carry_spec w a b c r c' :
  0 < w -> 0 <= a < 2 ^ w -> 0 <= b < 2 ^ w -> 0 <= c <= 1 ->
  add_with_carry w a b c = (r, c') ->
  r + 2 ^ w * c' = a + b + c /\ 0 <= r < 2 ^ w /\ 0 <= c' <= 1.
Proof.
  intros Hw Ha Hb Hc. unfold add_with_carry. cbv zeta. intros E. apply pair_equal_spec in E. destruct E as [<- <-].
  assert (2 <= 2 ^ w) by (apply (Z.pow_le_mono_r 2 1 w); lia).
  set (B := 2 ^ w) in *.
  assert (trunc (2 * w) (a + b + c) = a + b + c) as ->.
  { unfold trunc. apply Z.mod_small. rewrite double_width by lia. fold B. nia. }
  split; [|split].
  - unfold trunc. fold B. symmetry. apply div_mod_split. lia.
  - apply trunc_range; lia.
  - split; [apply Z.div_pos; lia|].
    assert ((a + b + c) / B < 2); [apply Z.div_lt_upper_bound; lia | lia].
Qed.

Lemma sub_with_borrow_spec w a b c r c' :
  0 < w -> 0 <= a < 2 ^ w -> 0 <= b < 2 ^ w -> 0 <= c <= 1 ->
  sub_with_borrow w a b c = (r, c') ->
  r - 2 ^ w * c' = a - b - c /\ 0 <= r < 2 ^ w /\ 0 <= c' <= 1.
Proof.
  intros Hw Ha Hb Hc. unfold sub_with_borrow. intros E. apply pair_equal_spec in E. destruct E as [<- <-].
  assert (2 <= 2 ^ w) by (apply (Z.pow_le_mono_r 2 1 w); lia).
  split; [|split].
  - unfold trunc. destruct (Z.ltb_spec (a - b - c) 0).
    + rewrite <- (Z.mod_add _ 1) by lia. rewrite Z.mod_small; lia.
    + rewrite Z.mod_small; lia.
  - apply trunc_range; lia.
  - destruct (Z.ltb_spec (a - b - c) 0); lia.
Qed.

Lemma mul_add_with_carry_spec w a b c d lo hi :
  0 < w -> 0 <= a < 2 ^ w -> 0 <= b < 2 ^ w -> 0 <= c < 2 ^ w -> 0 <= d < 2 ^ w ->
  mul_add_with_carry w a b c d = (lo, hi) ->
  lo + 2 ^ w * hi = a + b * c + d /\ 0 <= lo < 2 ^ w /\ 0 <= hi < 2 ^ w.
Proof.
  intros Hw Ha Hb Hc Hd. unfold mul_add_with_carry. cbv zeta. intros E. apply pair_equal_spec in E. destruct E as [<- <-].
  set (B := 2 ^ w) in *.
  assert (HB : 0 < B) by (unfold B; apply pow2_pos; lia).
  assert (0 <= b * c <= (B - 1) * (B - 1)) as Hbc by nia.
  assert (0 <= a + b * c + d < B * B) as HX by nia.
  assert (trunc (2 * w) (a + b * c + d) = a + b * c + d) as ->.
  { unfold trunc. apply Z.mod_small. rewrite double_width by lia. exact HX. }
  split; [|split].
  - unfold trunc. fold B. symmetry. apply div_mod_split. lia.
  - apply trunc_range; lia.
  - split; [apply Z.div_pos; lia | apply Z.div_lt_upper_bound; lia].
Qed.

(** ** Addition and subtraction *)
Lemma do_add_spec w n : forall a b c rs c',
  0 < w -> limbs w n a -> limbs w n b -> 0 <= c <= 1 ->
  do_add w a b c = (rs, c') ->
  val w rs + 2 ^ (w * Z.of_nat n) * c' = val w a + val w b + c /\ limbs w n rs /\ 0 <= c' <= 1.
Proof.
  induction n as [|n IH]; intros a b c rs c' Hw Ha Hb Hc E.
  - apply limbs_O in Ha, Hb. subst. cbn in E. injection E as <- <-.
    rewrite Z.mul_0_r. change (2 ^ 0) with 1. cbn [val]. repeat split; auto; lia.
  - apply limbs_S in Ha. destruct Ha as (x & a' & -> & Hx & Ha).
    apply limbs_S in Hb. destruct Hb as (y & b' & -> & Hy & Hb).
    cbn [do_add] in E.
    destruct (add_with_carry w x y c) as [r c1] eqn:E1.
    destruct (do_add w a' b' c1) as [rs1 c2] eqn:E2. injection E as <- <-.
    apply add_with_carry_spec in E1; auto. destruct E1 as (E1 & Hr & Hc1).
    apply IH in E2; auto. destruct E2 as (E2 & Hrs & Hc2).
    split; [|split; [apply limbs_cons; auto | auto]].
    cbn [val]. rewrite pow_mul by lia.
    set (P := 2 ^ (w * Z.of_nat n)) in *. set (B := 2 ^ w) in *.
    replace (r + B * val w rs1 + B * P * c2) with (r + B * (val w rs1 + P * c2)) by ring.
    rewrite E2. nia.
Qed.

Lemma do_sub_spec w n : forall a b c rs c',
  0 < w -> limbs w n a -> limbs w n b -> 0 <= c <= 1 ->
  do_sub w a b c = (rs, c') ->
  val w rs - 2 ^ (w * Z.of_nat n) * c' = val w a - val w b - c /\ limbs w n rs /\ 0 <= c' <= 1.
Proof.
  induction n as [|n IH]; intros a b c rs c' Hw Ha Hb Hc E.
  - apply limbs_O in Ha, Hb. subst. cbn in E. injection E as <- <-.
    rewrite Z.mul_0_r. change (2 ^ 0) with 1. cbn [val]. repeat split; auto; lia.
  - apply limbs_S in Ha. destruct Ha as (x & a' & -> & Hx & Ha).
    apply limbs_S in Hb. destruct Hb as (y & b' & -> & Hy & Hb).
    cbn [do_sub] in E.
    destruct (sub_with_borrow w x y c) as [r c1] eqn:E1.
    destruct (do_sub w a' b' c1) as [rs1 c2] eqn:E2. injection E as <- <-.
    apply sub_with_borrow_spec in E1; auto. destruct E1 as (E1 & Hr & Hc1).
    apply IH in E2; auto. destruct E2 as (E2 & Hrs & Hc2).
    split; [|split; [apply limbs_cons; auto | auto]].
    cbn [val]. rewrite pow_mul by lia.
    set (P := 2 ^ (w * Z.of_nat n)) in *. set (B := 2 ^ w) in *.
    replace (r + B * val w rs1 - B * P * c2) with (r + B * (val w rs1 - P * c2)) by ring.
    rewrite E2. nia.
Qed.

(** From the exact equation to the modular form with a truthful carry. *)
Lemma carry_form P v c s : 0 <= v < P -> 0 <= c <= 1 -> v + P * c = s ->
  v = s mod P /\ c = (if P <=? s then 1 else 0).
Proof.
  intros Hv Hc E. split.
  - rewrite <- E. rewrite Z.mul_comm, Z.mod_add by lia. symmetry; apply Z.mod_small; lia.
  - destruct (Z.leb_spec P s); nia.
Qed.
Lemma borrow_form P v c s : 0 <= v < P -> 0 <= c <= 1 -> v - P * c = s ->
  v = s mod P /\ c = (if s <? 0 then 1 else 0).
Proof.
  intros Hv Hc E. split.
  - rewrite <- E. replace (v - P * c) with (v + (- c) * P) by ring.
    rewrite Z.mod_add by lia. symmetry; apply Z.mod_small; lia.
  - destruct (Z.ltb_spec s 0); nia.
Qed.

Lemma bi_add_carry_correct n a b : limbs 64 n a -> limbs 64 n b ->
  let M := 2 ^ (64 * Z.of_nat n) in
  limbs 64 n (fst (bi_add_carry a b)) /\
  val 64 (fst (bi_add_carry a b)) = (val 64 a + val 64 b) mod M /\
  snd (bi_add_carry a b) = (if M <=? val 64 a + val 64 b then 1 else 0).
Proof.
  intros Ha Hb. cbv zeta. destruct (bi_add_carry a b) as [rs c] eqn:E.
  unfold bi_add_carry in E. apply do_add_spec with (n := n) in E; auto; try lia.
  destruct E as (E & Hrs & Hc). pose proof (val_bound 64 n rs ltac:(lia) Hrs) as Hb2.
  cbn [fst snd]. split; [exact Hrs|]. apply carry_form; auto. lia.
Qed.
Lemma bi_sub_borrow_correct n a b : limbs 64 n a -> limbs 64 n b ->
  let M := 2 ^ (64 * Z.of_nat n) in
  limbs 64 n (fst (bi_sub_borrow a b)) /\
  val 64 (fst (bi_sub_borrow a b)) = (val 64 a - val 64 b) mod M /\
  snd (bi_sub_borrow a b) = (if val 64 a <? val 64 b then 1 else 0).
Proof.
  intros Ha Hb. cbv zeta. destruct (bi_sub_borrow a b) as [rs c] eqn:E.
  unfold bi_sub_borrow in E. apply do_sub_spec with (n := n) in E; auto; try lia.
  destruct E as (E & Hrs & Hc). pose proof (val_bound 64 n rs ltac:(lia) Hrs) as Hb2.
  cbn [fst snd]. split; [exact Hrs|].
  rewrite Z.sub_0_r in E. apply borrow_form in E; auto. destruct E as [E1 E2]. split; [exact E1|].
  rewrite E2. destruct (Z.ltb_spec (val 64 a - val 64 b) 0), (Z.ltb_spec (val 64 a) (val 64 b)); lia.
Qed.
Lemma bi_add_limbs n a b : limbs 64 n a -> limbs 64 n b -> limbs 64 n (bi_add a b).
Proof. intros Ha Hb. apply (bi_add_carry_correct n a b Ha Hb). Qed.
Lemma bi_sub_limbs n a b : limbs 64 n a -> limbs 64 n b -> limbs 64 n (bi_sub a b).
Proof. intros Ha Hb. apply (bi_sub_borrow_correct n a b Ha Hb). Qed.
Lemma bi_add_val n a b : limbs 64 n a -> limbs 64 n b ->
  val 64 (bi_add a b) = (val 64 a + val 64 b) mod 2 ^ (64 * Z.of_nat n).
Proof. intros Ha Hb. apply (bi_add_carry_correct n a b Ha Hb). Qed.
Lemma bi_sub_val n a b : limbs 64 n a -> limbs 64 n b ->
  val 64 (bi_sub a b) = (val 64 a - val 64 b) mod 2 ^ (64 * Z.of_nat n).
Proof. intros Ha Hb. apply (bi_sub_borrow_correct n a b Ha Hb). Qed.
Lemma bi_sub_val_exact n a b : limbs 64 n a -> limbs 64 n b -> val 64 b <= val 64 a ->
  val 64 (bi_sub a b) = val 64 a - val 64 b.
Proof.
  intros Ha Hb H. rewrite (bi_sub_val n) by auto.
  pose proof (val_bound 64 n a ltac:(lia) Ha). pose proof (val_bound 64 n b ltac:(lia) Hb).
  apply Z.mod_small. lia.
Qed.
Lemma bi_add_val_exact n a b : limbs 64 n a -> limbs 64 n b ->
  val 64 a + val 64 b < 2 ^ (64 * Z.of_nat n) ->
  val 64 (bi_add a b) = val 64 a + val 64 b.
Proof.
  intros Ha Hb H. rewrite (bi_add_val n) by auto.
  pose proof (val_bound 64 n a ltac:(lia) Ha). pose proof (val_bound 64 n b ltac:(lia) Hb).
  apply Z.mod_small. lia.
Qed.

(** ** Multiplication *)
Lemma mul_row_spec w n : forall ai b r c m,
  0 < w -> limbs w n b -> limbs w (n + S m) r -> 0 <= ai < 2 ^ w -> 0 <= c < 2 ^ w ->
  nth n r 0 = 0 ->
  val w (mul_row w ai b r c) = val w r + ai * val w b + c /\
  limbs w (n + S m) (mul_row w ai b r c) /\
  (forall k, (n < k)%nat -> nth k (mul_row w ai b r c) 0 = nth k r 0).
Proof.
  induction n as [|n IH]; intros ai b r c m Hw Hb Hr Hai Hc H0.
  - apply limbs_O in Hb. subst b. cbn [Nat.add] in Hr. apply limbs_S in Hr.
    destruct Hr as (x & r' & -> & Hx & Hr). cbn in H0. subst x.
    cbn [mul_row val]. split; [lia|]. split; [apply limbs_cons; auto|].
    intros k Hk. destruct k; [lia|]. reflexivity.
  - apply limbs_S in Hb. destruct Hb as (y & b' & -> & Hy & Hb).
    cbn [Nat.add] in Hr. apply limbs_S in Hr. destruct Hr as (x & r' & -> & Hx & Hr).
    cbn [mul_row]. destruct (mul_add_with_carry w x ai y c) as [lo hi] eqn:E.
    apply mul_add_with_carry_spec in E; auto. destruct E as (E & Hlo & Hhi).
    cbn [nth] in H0.
    destruct (IH ai b' r' hi m Hw Hb Hr Hai Hhi H0) as (E2 & Hl & Hk).
    split; [|split].
    + cbn [val]. rewrite E2. nia.
    + cbn [Nat.add]. apply limbs_cons; auto.
    + intros k Hk'. destruct k; [lia|]. cbn [nth]. apply Hk. lia.
Qed.

Lemma mul_rows_spec w nb : forall na a b r,
  0 < w -> limbs w na a -> limbs w nb b -> limbs w (nb + na) r ->
  (forall k, (nb <= k)%nat -> nth k r 0 = 0) ->
  val w (mul_rows w a b r) = val w r + val w a * val w b /\
  limbs w (nb + na) (mul_rows w a b r).
Proof.
  induction na as [|na IH]; intros a b r Hw Ha Hb Hr H0.
  - apply limbs_O in Ha. subst. cbn. split; [lia | exact Hr].
  - apply limbs_S in Ha. destruct Ha as (ai & a' & -> & Hai & Ha).
    cbn [mul_rows].
    assert (HB : 0 < 2 ^ w) by (apply pow2_pos; lia).
    destruct (mul_row_spec w nb ai b r 0 na Hw Hb Hr Hai ltac:(lia) (H0 _ (le_n _)))
      as (E & Hl & Hk).
    destruct (mul_row w ai b r 0) as [|x rest] eqn:E1.
    { destruct Hl as [Hl _]. cbn in Hl. lia. }
    replace (nb + S na)%nat with (S (nb + na)) in Hl |- * by lia.
    apply limbs_cons in Hl. destruct Hl as [Hx Hrest].
    destruct (IH a' b rest Hw Ha Hb Hrest) as (E2 & Hl2).
    { intros k Hk'. specialize (Hk (S k) ltac:(lia)). cbn [nth] in Hk. rewrite Hk. apply H0. lia. }
    split; [|apply limbs_cons; auto].
    cbn [val] in *. rewrite E2. nia.
Qed.

Lemma nth_repeat0 k n : nth k (repeat 0 n) 0 = 0.
Proof. revert k; induction n as [|n IH]; intros [|k]; cbn; auto. Qed.

Lemma bi_mul_extend_correct n a b : limbs 64 n a -> limbs 64 n b ->
  limbs 64 (2 * n) (bi_mul_extend a b) /\ val 64 (bi_mul_extend a b) = val 64 a * val 64 b.
Proof.
  intros Ha Hb. unfold bi_mul_extend. rewrite (limbs_length _ _ _ Ha).
  replace (2 * n)%nat with (n + n)%nat by lia.
  destruct (mul_rows_spec 64 n n a b (repeat 0 (n + n)) ltac:(lia) Ha Hb) as [E H].
  - apply limbs_repeat0; lia.
  - intros k _. apply nth_repeat0.
  - rewrite val_repeat0 in E. split; [exact H | lia].
Qed.

Lemma limbs_firstn w n m l : limbs w (n + m) l -> limbs w n (firstn n l).
Proof.
  intros [H1 H2]. split; [rewrite firstn_length; lia|].
  apply Forall_forall. intros x Hx. rewrite Forall_forall in H2. apply H2.
  rewrite <- (firstn_skipn n l). apply in_or_app. auto.
Qed.
Lemma limbs_skipn w n m l : limbs w (n + m) l -> limbs w m (skipn n l).
Proof.
  intros [H1 H2]. split; [rewrite skipn_length; lia|].
  apply Forall_forall. intros x Hx. rewrite Forall_forall in H2. apply H2.
  rewrite <- (firstn_skipn n l). apply in_or_app. auto.
Qed.
Lemma val_firstn_mod w n m l : 0 <= w -> limbs w (n + m) l ->
  val w (firstn n l) = val w l mod 2 ^ (w * Z.of_nat n).
Proof.
  intros Hw H. rewrite <- (firstn_skipn n l) at 2. rewrite val_app by lia.
  assert (Hf := limbs_firstn _ _ _ _ H). rewrite (limbs_length _ _ _ Hf).
  pose proof (val_bound _ _ _ Hw Hf).
  rewrite Z.mul_comm, Z.mod_add by lia. symmetry; apply Z.mod_small; lia.
Qed.

Lemma bi_mul_correct n a b : limbs 64 n a -> limbs 64 n b ->
  limbs 64 n (bi_mul a b) /\ val 64 (bi_mul a b) = (val 64 a * val 64 b) mod 2 ^ (64 * Z.of_nat n).
Proof.
  intros Ha Hb. destruct (bi_mul_extend_correct n a b Ha Hb) as [Hl E].
  unfold bi_mul. rewrite (limbs_length _ _ _ Ha).
  replace (2 * n)%nat with (n + n)%nat in Hl by lia.
  split; [apply limbs_firstn with (m := n); exact Hl|].
  rewrite (val_firstn_mod 64 n n) by (auto; lia). rewrite E. reflexivity.
Qed.

(** ** Comparisons *)
Lemma bi_eqb_spec n : forall a b, limbs 64 n a -> limbs 64 n b ->
  bi_eqb a b = (val 64 a =? val 64 b).
Proof.
  intros a b Ha Hb.
  assert (bi_eqb a b = true <-> a = b) as H.
  { destruct Ha as [La _], Hb as [Lb _]. subst n. revert b Lb. induction a as [|x a IH]; intros b Lb.
    - destruct b; [|discriminate]. cbn. tauto.
    - destruct b as [|y b]; [discriminate|]. cbn [bi_eqb].
      destruct (Z.eqb_spec x y) as [->|Hne]; cbn [negb].
      + rewrite IH by (cbn in Lb; lia). split; [intros ->; auto | intros E; injection E; auto].
      + split; [discriminate | intros E; injection E; intros; congruence]. }
  destruct (Z.eqb_spec (val 64 a) (val 64 b)) as [E|E].
  - apply H. eapply val_inj; eauto; lia.
  - destruct (bi_eqb a b); auto. exfalso. apply E. f_equal. apply H. reflexivity.
Qed.

Lemma scan_cmp_spec w n : forall a b, 0 < w -> limbs w n a -> limbs w n b ->
  (scan_cmp Z.ltb a b = if val w a =? val w b then None else Some (val w a <? val w b)) /\
  (scan_cmp Z.gtb a b = if val w a =? val w b then None else Some (val w a >? val w b)).
Proof.
  induction n as [|n IH]; intros a b Hw Ha Hb.
  - apply limbs_O in Ha, Hb. subst. cbn. auto.
  - apply limbs_S in Ha. destruct Ha as (x & a' & -> & Hx & Ha).
    apply limbs_S in Hb. destruct Hb as (y & b' & -> & Hy & Hb).
    destruct (IH a' b' Hw Ha Hb) as [E1 E2]. cbn [scan_cmp val]. rewrite E1, E2.
    assert (HB : 0 < 2 ^ w) by (apply pow2_pos; lia).
    set (B := 2 ^ w) in *. set (va := val w a') in *. set (vb := val w b') in *.
    destruct (Z.eqb_spec va vb) as [->|Hne].
    + destruct (Z.eqb_spec x y) as [->|Hxy].
      * rewrite Z.eqb_refl. auto.
      * destruct (Z.eqb_spec (x + B * vb) (y + B * vb)); [lia|].
        split; f_equal; [|rewrite !Z.gtb_ltb];
          match goal with |- (?p <? ?q) = (?r <? ?s) =>
            destruct (Z.ltb_spec p q), (Z.ltb_spec r s); lia end.
    + assert (va < vb -> x + B * va < y + B * vb) by nia.
      assert (vb < va -> y + B * vb < x + B * va) by nia.
      destruct (Z.eqb_spec (x + B * va) (y + B * vb)); [lia|].
      rewrite !Z.gtb_ltb.
      split; f_equal; match goal with |- (?p <? ?q) = (?r <? ?s) =>
            destruct (Z.ltb_spec p q), (Z.ltb_spec r s); lia end.
Qed.

Lemma bi_cmp_correct n a b : limbs 64 n a -> limbs 64 n b ->
  bi_ltb a b = (val 64 a <? val 64 b) /\ bi_gtb a b = (val 64 a >? val 64 b) /\
  bi_leb a b = (val 64 a <=? val 64 b) /\ bi_geb a b = (val 64 a >=? val 64 b) /\
  bi_eqb a b = (val 64 a =? val 64 b).
Proof.
  intros Ha Hb. destruct (scan_cmp_spec 64 n a b ltac:(lia) Ha Hb) as [E1 E2].
  unfold bi_ltb, bi_gtb, bi_leb, bi_geb. rewrite E1, E2, (bi_eqb_spec n) by auto.
  rewrite Z.gtb_ltb, Z.geb_leb.
  destruct (Z.eqb_spec (val 64 a) (val 64 b)) as [->|Hne]; cbn [scan_default].
  - rewrite Z.ltb_irrefl, Z.leb_refl. auto.
  - repeat split; match goal with |- ?l = ?r => destruct l eqn:?, r eqn:?; lia end.
Qed.

Lemma bi_geb_val n a b : limbs 64 n a -> limbs 64 n b -> bi_geb a b = (val 64 b <=? val 64 a).
Proof. intros Ha Hb. destruct (bi_cmp_correct n a b Ha Hb) as (_&_&_&->&_). apply Z.geb_leb. Qed.
Lemma bi_gtb_val n a b : limbs 64 n a -> limbs 64 n b -> bi_gtb a b = (val 64 b <? val 64 a).
Proof. intros Ha Hb. destruct (bi_cmp_correct n a b Ha Hb) as (_&->&_). apply Z.gtb_ltb. Qed.
Lemma bi_ltb_val n a b : limbs 64 n a -> limbs 64 n b -> bi_ltb a b = (val 64 a <? val 64 b).
Proof. intros Ha Hb. apply (bi_cmp_correct n a b Ha Hb). Qed.

Lemma bi_is_zero_val w n a : 0 <= w -> limbs w n a -> bi_is_zero a = (val w a =? 0).
Proof.
  intros Hw. revert n. induction a as [|x a IH]; intros n H; [reflexivity|].
  apply limbs_cons_inv in H. destruct H as (n' & -> & Hx & Hl).
  unfold bi_is_zero in *. cbn [forallb val]. rewrite (IH _ Hl).
  pose proof (val_bound _ _ _ Hw Hl). pose proof (pow2_pos w Hw).
  destruct (Z.eqb_spec x 0), (Z.eqb_spec (val w a) 0), (Z.eqb_spec (x + 2 ^ w * val w a) 0);
    cbn; try reflexivity; nia.
Qed.
Lemma bi_is_one_val n a : limbs 64 n a -> bi_is_one a = (val 64 a =? 1).
Proof.
  intros H. destruct a as [|x a]; [reflexivity|].
  apply limbs_cons_inv in H. destruct H as (n' & -> & Hx & Hl).
  unfold bi_is_one. cbn [val].
  pose proof (bi_is_zero_val 64 n' a ltac:(lia) Hl) as E. unfold bi_is_zero in E. rewrite E.
  pose proof (val_bound 64 _ _ ltac:(lia) Hl).
  destruct (Z.eqb_spec x 1), (Z.eqb_spec (val 64 a) 0), (Z.eqb_spec (x + 2 ^ 64 * val 64 a) 1);
    cbn [andb]; try reflexivity; nia.
Qed.
Lemma val_mod2 x v : (x + 2 ^ 64 * v) mod 2 = x mod 2.
Proof. replace (x + 2 ^ 64 * v) with (x + (2 ^ 63 * v) * 2) by (change (2^64) with (2*2^63); ring).
  apply Z.mod_add. lia. Qed.
Lemma bi_is_even_val n a : limbs 64 (S n) a -> bi_is_even a = Z.even (val 64 a).
Proof.
  intros H. apply limbs_S in H. destruct H as (x & l & -> & Hx & Hl). cbn [bi_is_even val].
  rewrite Zmod_even. rewrite Z.even_add, Z.even_mul.
  change (Z.even (2 ^ 64)) with true. cbn [orb].
  destruct (Z.even x); reflexivity.
Qed.
Lemma bi_is_odd_val n a : limbs 64 (S n) a -> bi_is_odd a = Z.odd (val 64 a).
Proof.
  intros H. apply limbs_S in H. destruct H as (x & l & -> & Hx & Hl). cbn [bi_is_odd val].
  rewrite Zmod_odd. rewrite Z.odd_add, Z.odd_mul.
  change (Z.odd (2 ^ 64)) with false. cbn [andb]. rewrite xorb_false_r.
  destruct (Z.odd x); reflexivity.
Qed.

(** ** Shifts *)
Lemma lor_disjoint_add a b n : 0 <= n -> 0 <= b < 2 ^ n -> (a mod 2 ^ n = 0) -> Z.lor a b = a + b.
Proof.
  intros Hn Hb Ha.
  rewrite <- Z.lxor_lor.
  - symmetry. apply Z.add_nocarry_lxor.
    apply Z.bits_inj'. intros k Hk. rewrite Z.land_spec, Z.bits_0.
    destruct (Z.lt_ge_cases k n).
    + rewrite <- (Z.mod_pow2_bits_low a n) by lia. rewrite Ha, Z.bits_0. reflexivity.
    + rewrite <- (Z.mod_small b (2 ^ n)) by lia. rewrite Z.mod_pow2_bits_high by lia. apply andb_false_r.
  - apply Z.bits_inj'. intros k Hk. rewrite Z.land_spec, Z.bits_0.
    destruct (Z.lt_ge_cases k n).
    + rewrite <- (Z.mod_pow2_bits_low a n) by lia. rewrite Ha, Z.bits_0. reflexivity.
    + rewrite <- (Z.mod_small b (2 ^ n)) by lia. rewrite Z.mod_pow2_bits_high by lia. apply andb_false_r.
Qed.

(** x << n truncated to 64 bits, as high part of a two-limb window. *)
Lemma shl_trunc x n : 0 <= n <= 64 -> 0 <= x < 2 ^ 64 ->
  trunc 64 (Z.shiftl x n) = 2 ^ n * (x mod 2 ^ (64 - n)) /\
  Z.shiftr x (64 - n) = x / 2 ^ (64 - n) /\
  2 ^ n * x = trunc 64 (Z.shiftl x n) + 2 ^ 64 * Z.shiftr x (64 - n).
Proof.
  intros Hn Hx. rewrite Z.shiftl_mul_pow2, Z.shiftr_div_pow2 by lia.
  assert (E : 2 ^ 64 = 2 ^ n * 2 ^ (64 - n)) by (rewrite <- Z.pow_add_r by lia; f_equal; lia).
  assert (0 < 2 ^ n) by (apply pow2_pos; lia).
  assert (0 < 2 ^ (64 - n)) by (apply pow2_pos; lia).
  assert (E1 : trunc 64 (x * 2 ^ n) = 2 ^ n * (x mod 2 ^ (64 - n))).
  { unfold trunc. rewrite E. rewrite (Z.mul_comm x). apply Z.mul_mod_distr_l; lia. }
  split; [exact E1|]. split; [reflexivity|]. rewrite E1, E.
  pose proof (Z.div_mod x (2 ^ (64 - n)) ltac:(lia)). nia.
Qed.

Lemma shl_bits_spec n k : forall t a, 0 < n < 64 -> limbs 64 k a -> 0 <= t < 2 ^ n ->
  limbs 64 k (shl_bits n t a) /\
  exists top, 0 <= top < 2 ^ n /\
    val 64 (shl_bits n t a) + 2 ^ (64 * Z.of_nat k) * top = 2 ^ n * val 64 a + t.
Proof.
  induction k as [|k IH]; intros t a Hn Ha Ht.
  - apply limbs_O in Ha. subst. cbn [shl_bits val]. split; [apply limbs_O; auto|].
    exists t. rewrite Z.mul_0_r. change (2 ^ 0) with 1. lia.
  - apply limbs_S in Ha. destruct Ha as (x & a' & -> & Hx & Ha). cbn [shl_bits].
    destruct (shl_trunc x n ltac:(lia) Hx) as (E1 & E2 & E3).
    assert (P1 : 0 < 2 ^ n) by (apply pow2_pos; lia).
    assert (P2 : 0 < 2 ^ (64 - n)) by (apply pow2_pos; lia).
    assert (E : 2 ^ 64 = 2 ^ n * 2 ^ (64 - n)) by (rewrite <- Z.pow_add_r by lia; f_equal; lia).
    pose proof (Z.mod_pos_bound x (2 ^ (64 - n)) P2) as Hm.
    assert (Ht2 : 0 <= Z.shiftr x (64 - n) < 2 ^ n).
    { rewrite E2. split; [apply Z.div_pos; lia|]. apply Z.div_lt_upper_bound; [lia|].
      rewrite Z.mul_comm, <- E. lia. }
    assert (EL : Z.lor (trunc 64 (Z.shiftl x n)) t = trunc 64 (Z.shiftl x n) + t).
    { apply lor_disjoint_add with (n := n); try lia. rewrite E1.
      rewrite Z.mul_comm. apply Z.mod_mul. lia. }
    rewrite EL.
    assert (HL : 0 <= trunc 64 (Z.shiftl x n) + t < 2 ^ 64).
    { rewrite E1, E. nia. }
    destruct (IH (Z.shiftr x (64 - n)) a' Hn Ha Ht2) as (Hl & top & Htop & Ev).
    split; [apply limbs_cons; auto|]. exists top. split; [exact Htop|].
    cbn [val]. rewrite pow_mul by lia. nia.
Qed.

Lemma shr_bits_spec n k : forall a, 0 < n < 64 -> limbs 64 k a ->
  exists rs t, shr_bits n a = (rs, t) /\ limbs 64 k rs /\
    t = 2 ^ (64 - n) * (val 64 a mod 2 ^ n) /\
    2 ^ n * val 64 rs + val 64 a mod 2 ^ n = val 64 a.
Proof.
  induction k as [|k IH]; intros a Hn Ha.
  - apply limbs_O in Ha. subst. exists [], 0. cbn [shr_bits val].
    rewrite Z.mod_0_l by (pose proof (pow2_pos n ltac:(lia)); lia).
    split; [reflexivity|]. split; [apply limbs_O; auto|]. lia.
  - apply limbs_S in Ha. destruct Ha as (x & a' & -> & Hx & Ha). cbn [shr_bits].
    destruct (IH a' Hn Ha) as (rs & t & Er & Hl & Et & Ev). rewrite Er.
    assert (P1 : 0 < 2 ^ n) by (apply pow2_pos; lia).
    assert (P2 : 0 < 2 ^ (64 - n)) by (apply pow2_pos; lia).
    assert (E : 2 ^ 64 = 2 ^ n * 2 ^ (64 - n)) by (rewrite <- Z.pow_add_r by lia; f_equal; lia).
    pose proof (Z.mod_pos_bound (val 64 a') (2 ^ n) P1) as Hm.
    assert (ES : Z.shiftr x n = x / 2 ^ n) by (apply Z.shiftr_div_pow2; lia).
    assert (Hd : 0 <= x / 2 ^ n < 2 ^ (64 - n)).
    { split; [apply Z.div_pos; lia | apply Z.div_lt_upper_bound; [lia|]; rewrite <- E; lia]. }
    assert (EL : Z.lor (Z.shiftr x n) t = x / 2 ^ n + t).
    { rewrite Z.lor_comm, ES, Z.add_comm. apply lor_disjoint_add with (n := 64 - n); try lia.
      rewrite Et, Z.mul_comm. apply Z.mod_mul. lia. }
    assert (Emod : (x + 2 ^ 64 * val 64 a') mod 2 ^ n = x mod 2 ^ n).
    { replace (x + 2 ^ 64 * val 64 a') with (x + (2 ^ (64 - n) * val 64 a') * 2 ^ n)
        by (rewrite E; ring). apply Z.mod_add. lia. }
    exists (Z.lor (Z.shiftr x n) t :: rs), (trunc 64 (Z.shiftl x (64 - n))).
    split; [reflexivity|]. rewrite EL. split; [|split].
    + apply limbs_cons. split; [|exact Hl]. rewrite Et, E. nia.
    + cbn [val]. rewrite Emod.
      destruct (shl_trunc x (64 - n) ltac:(lia) Hx) as (E1 & _ & _).
      replace (64 - (64 - n)) with n in E1 by lia. exact E1.
    + cbn [val]. rewrite Emod. rewrite Et.
      pose proof (Z.div_mod x (2 ^ n) ltac:(lia)) as D. rewrite E at 1.
      replace (2 ^ n * (x / 2 ^ n + 2 ^ (64 - n) * (val 64 a' mod 2 ^ n) +
         2 ^ n * 2 ^ (64 - n) * val 64 rs) + x mod 2 ^ n)
       with ((2 ^ n * (x / 2 ^ n) + x mod 2 ^ n) + (2 ^ n * 2 ^ (64 - n)) * (2 ^ n * val 64 rs + val 64 a' mod 2 ^ n)) by ring.
      rewrite Ev, <- D, <- E. reflexivity.
Qed.

Lemma do_mul_by_2_spec k : forall a c, limbs 64 k a -> 0 <= c <= 1 ->
  let '(rs, c') := do_mul_by_2 a c in
  limbs 64 k rs /\ 0 <= c' <= 1 /\
  val 64 rs + 2 ^ (64 * Z.of_nat k) * c' = 2 * val 64 a + c.
Proof.
  induction k as [|k IH]; intros a c Ha Hc.
  - apply limbs_O in Ha. subst. cbn [do_mul_by_2 val]. split; [apply limbs_O; auto|].
    rewrite Z.mul_0_r. change (2 ^ 0) with 1. lia.
  - apply limbs_S in Ha. destruct Ha as (x & a' & -> & Hx & Ha). cbn [do_mul_by_2].
    destruct (shl_trunc x 1 ltac:(lia) Hx) as (E1 & E2 & E3).
    change (64 - 1) with 63 in *. change (2 ^ 1) with 2 in *.
    pose proof (Z.mod_pos_bound x (2 ^ 63) ltac:(lia)) as Hm.
    assert (Ht2 : 0 <= Z.shiftr x 63 <= 1).
    { rewrite E2. split; [apply Z.div_pos; lia|].
      assert (x / 2 ^ 63 < 2); [apply Z.div_lt_upper_bound; lia | lia]. }
    specialize (IH a' (Z.shiftr x 63) Ha Ht2).
    destruct (do_mul_by_2 a' (Z.shiftr x 63)) as [rs c'] eqn:Er.
    destruct IH as (Hl & Hc' & Ev).
    assert (EL : Z.lor (trunc 64 (Z.shiftl x 1)) c = trunc 64 (Z.shiftl x 1) + c).
    { apply lor_disjoint_add with (n := 1); lia. }
    rewrite EL. split; [apply limbs_cons; split; auto; lia|]. split; [exact Hc'|].
    cbn [val]. rewrite pow_mul by lia. nia.
Qed.
Lemma bi_mul_by_2_correct n a : limbs 64 n a ->
  let M := 2 ^ (64 * Z.of_nat n) in
  limbs 64 n (fst (bi_mul_by_2 a)) /\
  val 64 (fst (bi_mul_by_2 a)) = (2 * val 64 a) mod M /\
  snd (bi_mul_by_2 a) = (if M <=? 2 * val 64 a then 1 else 0).
Proof.
  intros Ha. cbv zeta. unfold bi_mul_by_2. pose proof (do_mul_by_2_spec n a 0 Ha ltac:(lia)) as H.
  destruct (do_mul_by_2 a 0) as [rs c]. destruct H as (Hl & Hc & E). cbn [fst snd].
  split; [exact Hl|]. apply carry_form; auto; [apply val_bound; auto; lia | lia].
Qed.

Lemma do_div_by_2_shr a : do_div_by_2 a = shr_bits 1 a.
Proof. induction a as [|x a IH]; cbn; [reflexivity|]. rewrite IH. reflexivity. Qed.

Lemma div_from_eq a b q r : 0 < b -> 0 <= r < b -> b * q + r = a -> q = a / b.
Proof. intros. apply (Z.div_unique_pos a b q r); lia. Qed.

Lemma bi_div_by_2_correct n a : limbs 64 n a ->
  limbs 64 n (bi_div_by_2 a) /\ val 64 (bi_div_by_2 a) = val 64 a / 2.
Proof.
  intros Ha. unfold bi_div_by_2. rewrite do_div_by_2_shr.
  destruct (shr_bits_spec 1 n a ltac:(lia) Ha) as (rs & t & -> & Hl & _ & E). cbn [fst].
  split; [exact Hl|]. change (2 ^ 1) with 2 in E.
  apply div_from_eq with (r := val 64 a mod 2); try lia.
Qed.

Lemma swap_up_spec n : forall a t, limbs 64 n a -> 0 <= t < 2 ^ 64 ->
  limbs 64 n (swap_up t a) /\ exists top, 0 <= top < 2 ^ 64 /\
    val 64 (swap_up t a) + 2 ^ (64 * Z.of_nat n) * top = 2 ^ 64 * val 64 a + t.
Proof.
  induction n as [|n IH]; intros a t Ha Ht.
  - apply limbs_O in Ha. subst. split; [apply limbs_O; auto|]. exists t. cbn [swap_up val].
    rewrite Z.mul_0_r. change (2 ^ 0) with 1. lia.
  - apply limbs_S in Ha. destruct Ha as (x & a' & -> & Hx & Ha). cbn [swap_up].
    destruct (IH a' x Ha Hx) as (Hl & top & Htop & E).
    split; [apply limbs_cons; auto|]. exists top. split; [exact Htop|].
    cbn [val]. rewrite pow_mul by lia. nia.
Qed.
Lemma swap_down_spec n : forall a, limbs 64 n a ->
  exists rs t, swap_down a = (rs, t) /\ limbs 64 n rs /\ 0 <= t < 2 ^ 64 /\
    2 ^ 64 * val 64 rs + t = val 64 a.
Proof.
  induction n as [|n IH]; intros a Ha.
  - apply limbs_O in Ha. subst. exists [], 0. cbn. repeat split; auto; lia.
  - apply limbs_S in Ha. destruct Ha as (x & a' & -> & Hx & Ha). cbn [swap_down].
    destruct (IH a' Ha) as (rs & t & -> & Hl & Ht & E).
    exists (t :: rs), x. split; [reflexivity|]. split; [apply limbs_cons; auto|].
    split; [exact Hx|]. cbn [val]. lia.
Qed.

Lemma iter_S {A} (f : A -> A) j x : Nat.iter (S j) f x = f (Nat.iter j f x).
Proof. reflexivity. Qed.

Lemma iter_swap_up n j a : limbs 64 n a ->
  limbs 64 n (Nat.iter j (swap_up 0) a) /\
  val 64 (Nat.iter j (swap_up 0) a) = (2 ^ (64 * Z.of_nat j) * val 64 a) mod 2 ^ (64 * Z.of_nat n).
Proof.
  intros Ha. induction j as [|j [Hl E]].
  - cbn [Nat.iter nat_rect]. pose proof (val_bound 64 n a ltac:(lia) Ha).
    split; [exact Ha|]. rewrite Z.mul_0_r. change (2 ^ 0) with 1.
    rewrite Z.mul_1_l, Z.mod_small; lia.
  - rewrite iter_S.
    destruct (swap_up_spec n _ 0 Hl ltac:(lia)) as (Hl2 & top & Htop & E2).
    split; [exact Hl2|].
    set (M := 2 ^ (64 * Z.of_nat n)) in *.
    assert (0 < M) by (apply pow2_pos; lia).
    rewrite pow_mul by lia.
    rewrite <- Z.mul_assoc. rewrite <- Z.mul_mod_idemp_r by lia. rewrite <- E.
    rewrite Z.add_0_r in E2. rewrite <- E2.
    rewrite (Z.mul_comm M), Z.mod_add by lia.
    symmetry. apply Z.mod_small. apply val_bound; auto; lia.
Qed.
Lemma iter_swap_down n j a : limbs 64 n a ->
  limbs 64 n (Nat.iter j (fun x => fst (swap_down x)) a) /\
  val 64 (Nat.iter j (fun x => fst (swap_down x)) a) = val 64 a / 2 ^ (64 * Z.of_nat j).
Proof.
  intros Ha. induction j as [|j [Hl E]].
  - cbn [Nat.iter nat_rect]. rewrite Z.mul_0_r. change (2 ^ 0) with 1. rewrite Z.div_1_r. auto.
  - rewrite iter_S.
    destruct (swap_down_spec n _ Hl) as (rs & t & -> & Hl2 & Ht & E2). cbn [fst].
    split; [exact Hl2|]. rewrite E in E2.
    rewrite pow_mul by lia. rewrite Z.mul_comm, <- Z.div_div by (try apply pow2_pos; try lia).
    apply div_from_eq with (r := t); lia.
Qed.

Lemma bi_mul_by_2exp_correct n a k : limbs 64 n a -> 0 <= k ->
  limbs 64 n (bi_mul_by_2exp a k) /\
  val 64 (bi_mul_by_2exp a k) = (val 64 a * 2 ^ k) mod 2 ^ (64 * Z.of_nat n).
Proof.
  intros Ha Hk. unfold bi_mul_by_2exp. rewrite (limbs_length _ _ _ Ha).
  set (M := 2 ^ (64 * Z.of_nat n)). assert (HM : 0 < M) by (apply pow2_pos; lia).
  destruct (Z.leb_spec (64 * Z.of_nat n) k) as [Hle|Hlt].
  - split; [apply limbs_map0; [lia | apply (limbs_length _ _ _ Ha)]|].
    rewrite val_map0. symmetry. unfold M.
    replace k with (64 * Z.of_nat n + (k - 64 * Z.of_nat n)) by lia.
    rewrite Z.pow_add_r by lia. fold M.
    replace (val 64 a * (M * 2 ^ (k - 64 * Z.of_nat n))) with (val 64 a * 2 ^ (k - 64 * Z.of_nat n) * M) by ring.
    apply Z.mod_mul. lia.
  - destruct (iter_swap_up n (Z.to_nat (k / 64)) a Ha) as [Hl E].
    rewrite Z2Nat.id in E by (apply Z.div_pos; lia).
    set (a1 := Nat.iter _ _ a) in *. fold M in E.
    pose proof (Z.mod_pos_bound k 64 ltac:(lia)) as Hm.
    pose proof (Z.div_mod k 64 ltac:(lia)) as Hd.
    assert (Ek : 2 ^ k = 2 ^ (64 * (k / 64)) * 2 ^ (k mod 64)).
    { rewrite <- Z.pow_add_r by (try apply Z.mul_nonneg_nonneg; try apply Z.div_pos; lia). f_equal. lia. }
    destruct (Z.ltb_spec 0 (k mod 64)) as [Hp|Hz].
    + destruct (shl_bits_spec (k mod 64) n 0 a1 ltac:(lia) Hl) as (Hl2 & top & Htop & E2).
      { pose proof (pow2_pos (k mod 64)). lia. }
      split; [exact Hl2|]. fold M in E2.
      rewrite Ek. replace (val 64 a * (2 ^ (64 * (k / 64)) * 2 ^ (k mod 64)))
        with (2 ^ (k mod 64) * (2 ^ (64 * (k / 64)) * val 64 a)) by ring.
      rewrite <- Z.mul_mod_idemp_r by lia. rewrite <- E.
      rewrite Z.add_0_r in E2. rewrite <- E2.
      rewrite (Z.mul_comm M), Z.mod_add by lia.
      symmetry. apply Z.mod_small. apply val_bound; auto; lia.
    + split; [exact Hl|]. replace (k mod 64) with 0 in Ek by lia.
      rewrite Ek, E. f_equal. change (2 ^ 0) with 1. ring.
Qed.

Lemma bi_div_by_2exp_correct n a k : limbs 64 n a -> 0 <= k ->
  limbs 64 n (bi_div_by_2exp a k) /\ val 64 (bi_div_by_2exp a k) = val 64 a / 2 ^ k.
Proof.
  intros Ha Hk. unfold bi_div_by_2exp. rewrite (limbs_length _ _ _ Ha).
  pose proof (val_bound 64 n a ltac:(lia) Ha) as Hv.
  assert (P : 0 < 2 ^ k) by (apply pow2_pos; lia).
  destruct (Z.leb_spec (64 * Z.of_nat n) k) as [Hle|Hlt].
  - split; [apply limbs_map0; [lia | apply (limbs_length _ _ _ Ha)]|].
    rewrite val_map0. symmetry. apply Z.div_small. split; [lia|].
    apply Z.lt_le_trans with (2 ^ (64 * Z.of_nat n)); [lia|]. apply Z.pow_le_mono_r; lia.
  - pose proof (Z.mod_pos_bound k 64 ltac:(lia)) as Hm.
    pose proof (Z.div_mod k 64 ltac:(lia)) as Hd.
    assert (Hdp : 0 <= k / 64) by (apply Z.div_pos; lia).
    set (a1 := if (1 <? n)%nat then _ else a).
    assert (limbs 64 n a1 /\ val 64 a1 = val 64 a / 2 ^ (64 * (k / 64))) as [Hl E].
    { unfold a1. destruct (Nat.ltb_spec 1 n).
      - destruct (iter_swap_down n (Z.to_nat (k / 64)) a Ha) as [Hl E].
        rewrite Z2Nat.id in E by lia. auto.
      - assert (k / 64 = 0) as -> by (apply Z.div_small; lia).
        change (2 ^ (64 * 0)) with 1. rewrite Z.div_1_r. auto. }
    assert (Ek : 2 ^ k = 2 ^ (64 * (k / 64)) * 2 ^ (k mod 64)).
    { rewrite <- Z.pow_add_r by lia. f_equal. lia. }
    destruct (Z.ltb_spec 0 (k mod 64)) as [Hp|Hz].
    + destruct (shr_bits_spec (k mod 64) n a1 ltac:(lia) Hl) as (rs & t & -> & Hl2 & _ & E2).
      cbn [fst]. split; [exact Hl2|].
      assert (0 < 2 ^ (64 * (k / 64))) by (apply pow2_pos; lia).
      assert (0 < 2 ^ (k mod 64)) by (apply pow2_pos; lia).
      rewrite Ek, <- Z.div_div by lia. rewrite <- E.
      apply div_from_eq with (r := val 64 a1 mod 2 ^ (k mod 64)); try lia.
    + split; [exact Hl|]. replace (k mod 64) with 0 in Ek by lia.
      rewrite Ek, E. change (2 ^ 0) with 1. rewrite Z.mul_1_r. reflexivity.
Qed.
