(** Proofs about the big-integer model: bits, division, codecs, NAF, bit extraction. *)
From Coq Require Import ZArith List Bool Lia.
From Coq Require Import ZifyBool ZifyNat.
From Verif Require Import BigIntModel BigIntSpec BigIntProof.
Import ListNotations.
Open Scope Z_scope.

(** ** Bits of a limb vector *)
Lemma testbit_low x v k : 0 <= x < 2 ^ 64 -> 0 <= k < 64 ->
  Z.testbit (x + 2 ^ 64 * v) k = Z.testbit x k.
Proof.
  intros Hx Hk. rewrite <- (Z.mod_pow2_bits_low _ 64) by lia.
  rewrite Z.mul_comm, Z.mod_add by lia. rewrite Z.mod_small by lia. reflexivity.
Qed.
Lemma testbit_high x v k : 0 <= x < 2 ^ 64 -> 64 <= k ->
  Z.testbit (x + 2 ^ 64 * v) k = Z.testbit v (k - 64).
Proof.
  intros Hx Hk. replace k with (k - 64 + 64) at 1 by lia.
  rewrite <- Z.div_pow2_bits by lia.
  rewrite Z.mul_comm, Z.div_add by lia. rewrite Z.div_small by lia. reflexivity.
Qed.

Lemma testbit_val n : forall a i, limbs 64 n a ->
  Z.testbit (val 64 a) (Z.of_nat i) =
  match nth_error a (i / 64) with Some x => Z.testbit x (Z.of_nat (i mod 64)) | None => false end.
Proof.
  induction n as [|n IH]; intros a i Ha.
  - apply limbs_O in Ha. subst. cbn [val]. rewrite Z.bits_0. destruct (i / 64)%nat; reflexivity.
  - apply limbs_S in Ha. destruct Ha as (x & a' & -> & Hx & Ha). cbn [val].
    destruct (Nat.lt_ge_cases i 64) as [H|H].
    + rewrite Nat.div_small, Nat.mod_small by lia. cbn [nth_error]. apply testbit_low; lia.
    + rewrite testbit_high by lia. replace (Z.of_nat i - 64) with (Z.of_nat (i - 64)) by lia.
      rewrite (IH a' (i - 64)%nat Ha).
      replace (i / 64)%nat with (S ((i - 64) / 64))%nat.
      2:{ replace i with (1 * 64 + (i - 64))%nat at 2 by lia. rewrite Nat.div_add_l by lia. lia. }
      replace (i mod 64)%nat with ((i - 64) mod 64)%nat.
      2:{ replace i with ((i - 64) + 1 * 64)%nat at 2 by lia. rewrite Nat.mod_add by lia. lia. }
      reflexivity.
Qed.

Lemma land_pow2_eq x k : 0 <= k -> Z.land x (Z.shiftl 1 k) = if Z.testbit x k then 2 ^ k else 0.
Proof.
  intros Hk. rewrite Z.shiftl_1_l. apply Z.bits_inj'. intros j Hj.
  rewrite Z.land_spec, Z.pow2_bits_eqb by lia.
  destruct (Z.eqb_spec k j) as [->|Hne].
  - rewrite andb_true_r. destruct (Z.testbit x j); [rewrite Z.pow2_bits_true by lia; auto | rewrite Z.bits_0; auto].
  - rewrite andb_false_r. destruct (Z.testbit x k); [rewrite Z.pow2_bits_false by lia; auto | rewrite Z.bits_0; auto].
Qed.
Lemma land_pow2_test x k : 0 <= k -> (Z.land x (Z.shiftl 1 k) =? Z.shiftl 1 k) = Z.testbit x k.
Proof.
  intros Hk. rewrite land_pow2_eq by lia. rewrite Z.shiftl_1_l.
  pose proof (pow2_pos k Hk). destruct (Z.testbit x k); lia.
Qed.
Lemma bi_test_bit_val n a i : limbs 64 n a -> bi_test_bit a i = Z.testbit (val 64 a) (Z.of_nat i).
Proof.
  intros Ha. unfold bi_test_bit. rewrite (testbit_val n) by auto.
  destruct (nth_error a (i / 64)) as [x|]; [|reflexivity]. apply land_pow2_test. lia.
Qed.
Lemma bit_of_val n a i : limbs 64 n a -> bit_of a i = Z.testbit (val 64 a) (Z.of_nat i).
Proof.
  intros Ha. unfold bit_of. rewrite (testbit_val n) by auto.
  destruct (nth_error a (i / 64)) as [x|]; [|reflexivity].
  set (k := Z.of_nat (i mod 64)). assert (0 <= k) by (unfold k; lia).
  rewrite land_pow2_eq by lia. rewrite Z.shiftr_div_pow2 by lia.
  pose proof (pow2_pos k). destruct (Z.testbit x k).
  - rewrite Z.div_same by lia. reflexivity.
  - rewrite Z.div_0_l by lia. reflexivity.
Qed.

(** ** update_nth / SetBit *)
Lemma update_nth_val n : forall a k f, limbs 64 n a -> (k < n)%nat ->
  0 <= f (nth k a 0) < 2 ^ 64 ->
  limbs 64 n (update_nth k f a) /\
  val 64 (update_nth k f a) = val 64 a + 2 ^ (64 * Z.of_nat k) * (f (nth k a 0) - nth k a 0).
Proof.
  induction n as [|n IH]; intros a k f Ha Hk Hf; [lia|].
  apply limbs_S in Ha. destruct Ha as (x & a' & -> & Hx & Ha).
  destruct k as [|k].
  - cbn [update_nth nth] in *. split; [apply limbs_cons; auto|]. cbn [val].
    rewrite Z.mul_0_r. change (2 ^ 0) with 1. lia.
  - cbn [update_nth nth] in *. destruct (IH a' k f Ha ltac:(lia) Hf) as [Hl E].
    split; [apply limbs_cons; auto|]. cbn [val]. rewrite E, pow_mul by lia. ring.
Qed.
Lemma nth_limb n a k : limbs 64 n a -> 0 <= nth k a 0 < 2 ^ 64.
Proof.
  intros [_ H]. rewrite Forall_forall in H. destruct (Nat.lt_ge_cases k (length a)).
  - apply H. apply nth_In. lia.
  - rewrite nth_overflow by lia. lia.
Qed.
Lemma lor_range x y : 0 <= x < 2 ^ 64 -> 0 <= y < 2 ^ 64 -> 0 <= Z.lor x y < 2 ^ 64.
Proof.
  intros Hx Hy. split; [apply Z.lor_nonneg; lia|].
  destruct (Z.eq_dec (Z.lor x y) 0) as [->|Hne]; [lia|].
  assert (0 < Z.lor x y) by (assert (0 <= Z.lor x y) by (apply Z.lor_nonneg; lia); lia).
  apply Z.log2_lt_pow2; [lia|]. rewrite Z.log2_lor by lia.
  apply Z.max_lub_lt.
  - destruct (Z.eq_dec x 0) as [->|]; [cbn; lia|]. apply Z.log2_lt_pow2; lia.
  - destruct (Z.eq_dec y 0) as [->|]; [cbn; lia|]. apply Z.log2_lt_pow2; lia.
Qed.
Lemma lor_pow2_add x k : 0 <= k -> Z.testbit x k = false -> Z.lor x (Z.shiftl 1 k) = x + 2 ^ k.
Proof.
  intros Hk Ht.
  assert (L : Z.land x (Z.shiftl 1 k) = 0) by (rewrite land_pow2_eq by lia; rewrite Ht; reflexivity).
  rewrite <- Z.lxor_lor by exact L.
  rewrite <- Z.add_nocarry_lxor by exact L. rewrite Z.shiftl_1_l. reflexivity.
Qed.
Lemma nth_nth_error (a : list Z) k : (k < length a)%nat -> nth_error a k = Some (nth k a 0).
Proof. intros H. apply nth_error_nth'. exact H. Qed.

Lemma bi_set_bit_val n a i : limbs 64 n a -> (i < 64 * n)%nat ->
  Z.testbit (val 64 a) (Z.of_nat i) = false ->
  limbs 64 n (bi_set_bit a i true) /\ val 64 (bi_set_bit a i true) = val 64 a + 2 ^ Z.of_nat i.
Proof.
  intros Ha Hi Ht. unfold bi_set_bit.
  assert (Hm := Nat.mod_upper_bound i 64 ltac:(lia)).
  assert (Hd := Nat.div_mod i 64 ltac:(lia)).
  assert (Hk : (i / 64 < n)%nat) by (apply Nat.div_lt_upper_bound; lia).
  rewrite (testbit_val n) in Ht by auto.
  rewrite (nth_nth_error a (i / 64)) in Ht by (rewrite (limbs_length _ _ _ Ha); exact Hk).
  pose proof (nth_limb n a (i / 64) Ha) as Hx.
  set (k := Z.of_nat (i mod 64)) in *. assert (0 <= k < 64) by (unfold k; lia).
  assert (Hp : 0 < 2 ^ k < 2 ^ 64).
  { split; [apply pow2_pos; lia | apply Z.pow_lt_mono_r; lia]. }
  set (f := fun limb => Z.lor limb (Z.shiftl 1 k)).
  assert (Hf : 0 <= f (nth (i / 64) a 0) < 2 ^ 64).
  { apply lor_range; [exact Hx|]. rewrite Z.shiftl_1_l. lia. }
  destruct (update_nth_val n a (i / 64) f Ha Hk Hf) as [Hl E].
  split; [exact Hl|]. unfold f in E at 2. rewrite lor_pow2_add in E by (auto; lia).
  fold f. rewrite E. f_equal.
  replace (nth (i / 64) a 0 + 2 ^ k - nth (i / 64) a 0) with (2 ^ k) by ring.
  rewrite <- Z.pow_add_r by lia. f_equal. unfold k. lia.
Qed.

(** ** Division *)
Lemma testbit_div2 x i : Z.b2z (Z.testbit x (Z.of_nat i)) = x / 2 ^ Z.of_nat i - 2 * (x / 2 ^ Z.of_nat (S i)).
Proof.
  rewrite Z.testbit_spec' by lia.
  replace (Z.of_nat (S i)) with (Z.of_nat i + 1) by lia.
  rewrite Z.pow_add_r by lia. change (2 ^ 1) with 2.
  rewrite <- Z.div_div by (try lia; apply Z.pow_nonzero; lia).
  pose proof (Z.div_mod (x / 2 ^ Z.of_nat i) 2). lia.
Qed.

Lemma div_loop_correct n a d : forall i q r q',
  limbs 64 n a -> limbs 64 n d -> limbs 64 n q -> limbs 64 n r -> (i <= 64 * n)%nat ->
  (0 < n)%nat -> 0 < val 64 d ->
  val 64 q = 2 ^ Z.of_nat i * q' ->
  val 64 a / 2 ^ Z.of_nat i = q' * val 64 d + val 64 r -> 0 <= q' -> 0 <= val 64 r < val 64 d ->
  exists q2 r2, div_loop a d i q r = Some (q2, r2) /\ limbs 64 n q2 /\ limbs 64 n r2 /\
    val 64 a = val 64 q2 * val 64 d + val 64 r2 /\ 0 <= val 64 r2 < val 64 d.
Proof.
  induction i as [|i IH]; intros q r q' Ha Hd Hq Hr Hi Hn Hd0 Eq Ea Hq' Hr'.
  - cbn [div_loop]. exists q, r. change (2 ^ Z.of_nat 0) with 1 in *.
    rewrite Z.div_1_r in Ea. rewrite Eq, Z.mul_1_l. repeat split; auto; try apply Hq; try apply Hr; lia.
  - cbn [div_loop].
    destruct (bi_mul_by_2_correct n r Hr) as (Hl1 & E1 & C1).
    pose proof (do_mul_by_2_spec n r 0 Hr ltac:(lia)) as HM.
    change (do_mul_by_2 r 0) with (bi_mul_by_2 r) in HM.
    destruct (bi_mul_by_2 r) as [r1 carry]. cbn [fst snd] in *.
    set (M := 2 ^ (64 * Z.of_nat n)) in *.
    destruct HM as (_ & Hc & EM). rewrite Z.add_0_r in EM.
    rewrite (bi_test_bit_val n) by auto.
    set (bit := Z.testbit (val 64 a) (Z.of_nat i)).
    assert (Eb : Z.b2z bit = val 64 a / 2 ^ Z.of_nat i - 2 * (val 64 a / 2 ^ Z.of_nat (S i)))
      by apply testbit_div2.
    (* the low limb of r1 is even *)
    assert (Hev : nth 0 r1 0 mod 2 = 0).
    { destruct n as [|n']; [lia|]. apply limbs_S in Hl1. destruct Hl1 as (x & l & -> & Hx & Hl1).
      cbn [nth]. cbn [val] in EM. unfold M in EM. rewrite pow_mul in EM by lia.
      replace x with (0 + (val 64 r - 2 ^ 63 * (val 64 l + 2 ^ (64 * Z.of_nat n') * carry)) * 2).
      - rewrite Z.mod_add by lia. reflexivity.
      - change (2 ^ 64) with (2 * 2 ^ 63) in EM. nia. }
    pose proof (nth_limb n r1 0 Hl1) as Hx0.
    set (f := fun x => Z.lor x (if bit then 1 else 0)).
    assert (Ef : f (nth 0 r1 0) = nth 0 r1 0 + Z.b2z bit).
    { unfold f. replace (if bit then 1 else 0) with (Z.b2z bit) by (destruct bit; reflexivity).
      apply lor_disjoint_add with (n := 1); [lia| destruct bit; cbn; lia|exact Hev]. }
    assert (Hf : 0 <= f (nth 0 r1 0) < 2 ^ 64).
    { rewrite Ef. change (2 ^ 64) with (2 * 2 ^ 63) in *. destruct bit; cbn [Z.b2z]; lia. }
    destruct (update_nth_val n r1 0 f Hl1 ltac:(lia) Hf) as [Hl2 E2].
    rewrite Ef in E2. change (2 ^ (64 * Z.of_nat 0)) with 1 in E2.
    set (r2 := update_nth 0 f r1) in *.
    assert (E2' : val 64 r2 = val 64 r1 + Z.b2z bit) by lia.
    pose proof (val_bound 64 n r2 ltac:(lia) Hl2) as Hb2. fold M in Hb2.
    pose proof (val_bound 64 n d ltac:(lia) Hd) as Hbd. fold M in Hbd.
    rewrite (bi_geb_val n) by auto.
    assert (Hpow : 2 ^ Z.of_nat (S i) = 2 * 2 ^ Z.of_nat i).
    { replace (Z.of_nat (S i)) with (1 + Z.of_nat i) by lia. rewrite Z.pow_add_r by lia. reflexivity. }
    assert (HP : 0 < 2 ^ Z.of_nat i) by (apply pow2_pos; lia).
    assert (Hbit : 0 <= Z.b2z bit <= 1) by (destruct bit; cbn; lia).
    destruct ((val 64 d <=? val 64 r2) || negb (carry =? 0)) eqn:Ecmp.
    + destruct (bi_sub_borrow_correct n r2 d Hl2 Hd) as (Hl3 & E3 & C3).
      destruct (bi_sub_borrow r2 d) as [r3 borrow]. cbn [fst snd] in *. fold M in E3.
      assert (Hcc : carry = 0 \/ carry = 1) by (clear - Hc; lia).
      assert (Er2 : val 64 r2 + M * carry = 2 * val 64 r + Z.b2z bit) by (clear - EM E2'; lia).
      assert (Hge : carry = 0 -> val 64 d <= val 64 r2).
      { intros ->. cbn in Ecmp. rewrite orb_false_r in Ecmp. apply Z.leb_le. exact Ecmp. }
      assert (Hlt2 : carry = 1 -> val 64 r2 < val 64 d).
      { intros ->. clear - Er2 Hr' Hbd Hbit. lia. }
      assert (Hbc : borrow = carry).
      { rewrite C3. destruct Hcc as [Hc0|Hc0]; rewrite Hc0 in *; [specialize (Hge eq_refl) | specialize (Hlt2 eq_refl)];
          destruct (Z.ltb_spec (val 64 r2) (val 64 d)); lia. }
      rewrite Hbc, Z.eqb_refl. cbn [negb].
      assert (E3' : val 64 r3 = 2 * val 64 r + Z.b2z bit - val 64 d).
      { rewrite E3. clear - Hcc Hge Hlt2 Er2 Hb2 Hbd. destruct Hcc as [Hc0|Hc1]; subst carry.
        - specialize (Hge eq_refl). rewrite Z.mod_small; lia.
        - specialize (Hlt2 eq_refl). rewrite <- (Z.mod_add _ 1) by lia. rewrite Z.mod_small; lia. }
      assert (Ht : Z.testbit (val 64 q) (Z.of_nat i) = false).
      { rewrite Eq, Hpow. replace (2 * 2 ^ Z.of_nat i * q') with ((2 * q') * 2 ^ Z.of_nat i) by ring.
        rewrite Z.mul_pow2_bits by lia. rewrite Z.sub_diag. apply Z.testbit_even_0. }
      destruct (bi_set_bit_val n q i Hq ltac:(lia) Ht) as [Hlq Eqs].
      clear E1 C1 Hev E3 C3 Ef Hf EM.
      apply (IH _ _ (2 * q' + 1)); auto; try lia.
    + apply orb_false_iff in Ecmp. destruct Ecmp as [Ec1 Ec2].
      assert (Hc0 : carry = 0) by lia. clear E1 C1 Hev Ef Hf. subst carry.
      apply (IH _ _ (2 * q')); auto; lia.
Qed.

Lemma bi_divide_correct n a d : (0 < n)%nat -> limbs 64 n a -> limbs 64 n d ->
  (bi_divide a d = None <-> val 64 d = 0) /\
  (forall q r, bi_divide a d = Some (q, r) ->
     limbs 64 n q /\ limbs 64 n r /\
     val 64 a = val 64 q * val 64 d + val 64 r /\ 0 <= val 64 r < val 64 d).
Proof.
  intros Hn Ha Hd. unfold bi_divide. rewrite (bi_is_zero_val 64 n) by (auto; lia).
  pose proof (val_bound 64 n d ltac:(lia) Hd) as Hbd.
  pose proof (val_bound 64 n a ltac:(lia) Ha) as Hba.
  destruct (Z.eqb_spec (val 64 d) 0) as [E|E].
  - split; [tauto|]. discriminate.
  - assert (Hlen := limbs_length _ _ _ Ha).
    destruct (div_loop_correct n a d (64 * length a) (map (fun _ => 0) a) (map (fun _ => 0) a) 0)
      as (q2 & r2 & E2 & Hq & Hr & Eq & Hlt); rewrite ?val_map0; try lia; auto;
      try (apply limbs_map0; auto; lia).
    + rewrite Hlen. replace (Z.of_nat (64 * n)) with (64 * Z.of_nat n) by lia.
      rewrite Z.div_small; lia.
    + rewrite E2. split; [split; [discriminate | lia]|].
      intros q r Eqr. injection Eqr as <- <-. auto.
Qed.
Lemma bi_mod_correct n a d : (0 < n)%nat -> limbs 64 n a -> limbs 64 n d -> 0 < val 64 d ->
  limbs 64 n (bi_mod a d) /\ val 64 (bi_mod a d) = val 64 a mod val 64 d.
Proof.
  intros Hn Ha Hd H0. destruct (bi_divide_correct n a d Hn Ha Hd) as [H1 H2]. unfold bi_mod.
  destruct (bi_divide a d) as [[q r]|] eqn:E; [|destruct H1 as [H1 _]; specialize (H1 eq_refl); lia].
  destruct (H2 q r eq_refl) as (Hq & Hr & Eq & Hlt). split; [exact Hr|].
  apply Z.mod_unique_pos with (q := val 64 q); lia.
Qed.

(** ** Bits and bytes *)
Lemma to_bits_le_spec n a : limbs 64 n a ->
  bi_to_bits_le a = map (fun i => Z.testbit (val 64 a) (Z.of_nat i)) (seq 0 (64 * n)).
Proof.
  intros Ha. unfold bi_to_bits_le. rewrite (limbs_length _ _ _ Ha).
  apply map_ext. intros i. apply (bit_of_val n). exact Ha.
Qed.
Lemma to_bits_be_spec n a : limbs 64 n a -> bi_to_bits_be a = rev (bi_to_bits_le a).
Proof. intros Ha. unfold bi_to_bits_be, bi_to_bits_le. rewrite map_rev. reflexivity. Qed.

Lemma bits_val_testbits v n : forall s, 0 <= v ->
  bits_val (map (fun i => Z.testbit v (Z.of_nat i)) (seq s n)) =
  (v / 2 ^ Z.of_nat s) mod 2 ^ Z.of_nat n.
Proof.
  induction n as [|n IH]; intros s Hv.
  - cbn [seq map bits_val]. change (2 ^ Z.of_nat 0) with 1. rewrite Z.mod_1_r. reflexivity.
  - cbn [seq map bits_val]. rewrite IH by lia.
    change (if Z.testbit v (Z.of_nat s) then 1 else 0) with (Z.b2z (Z.testbit v (Z.of_nat s))).
    rewrite Z.testbit_spec' by lia.
    replace (2 ^ Z.of_nat (S s)) with (2 ^ Z.of_nat s * 2)
      by (replace (Z.of_nat (S s)) with (Z.of_nat s + 1) by lia; rewrite Z.pow_add_r by lia; reflexivity).
    replace (2 ^ Z.of_nat (S n)) with (2 * 2 ^ Z.of_nat n)
      by (replace (Z.of_nat (S n)) with (1 + Z.of_nat n) by lia; rewrite Z.pow_add_r by lia; reflexivity).
    rewrite <- Z.div_div by (try lia; apply Z.pow_nonzero; lia).
    set (x := v / 2 ^ Z.of_nat s). rewrite Z.rem_mul_r by (try lia; apply Z.pow_nonzero; lia). lia.
Qed.

Lemma bits_val_bound l : 0 <= bits_val l < 2 ^ Z.of_nat (length l).
Proof.
  induction l as [|b l IH]; [cbn; lia|]. cbn [bits_val length].
  replace (Z.of_nat (S (length l))) with (1 + Z.of_nat (length l)) by lia.
  rewrite Z.pow_add_r by lia. change (2 ^ 1) with 2. destruct b; lia.
Qed.

Lemma from_bits_loop_spec : forall bits cur idx, (idx < 64)%nat -> 0 <= cur < 2 ^ Z.of_nat idx ->
  (bits = [] -> cur = 0) ->
  val 64 (from_bits_loop bits cur idx) = cur + 2 ^ Z.of_nat idx * bits_val bits /\
  Forall (fun x => 0 <= x < 2 ^ 64) (from_bits_loop bits cur idx) /\
  (64 * length (from_bits_loop bits cur idx) < length bits + idx + 64)%nat.
Proof.
  induction bits as [|b rest IH]; intros cur idx Hi Hc H0.
  - rewrite (H0 eq_refl). cbn. split; [lia|]. split; [constructor|lia].
  - cbn [from_bits_loop bits_val length].
    assert (HP : 0 < 2 ^ Z.of_nat idx) by (apply pow2_pos; lia).
    assert (HS : 2 ^ Z.of_nat (S idx) = 2 * 2 ^ Z.of_nat idx).
    { replace (Z.of_nat (S idx)) with (1 + Z.of_nat idx) by lia. rewrite Z.pow_add_r by lia. reflexivity. }
    set (cur1 := if b then _ else cur).
    assert (E1 : cur1 = cur + 2 ^ Z.of_nat idx * (if b then 1 else 0)).
    { unfold cur1. destruct b; [|lia]. rewrite lor_pow2_add; [lia|lia|].
      rewrite <- (Z.mod_small cur (2 ^ Z.of_nat idx)) by lia. apply Z.mod_pow2_bits_high. lia. }
    assert (Hc1 : 0 <= cur1 < 2 ^ Z.of_nat (S idx)) by (rewrite E1, HS; destruct b; lia).
    assert (H64 : 2 ^ Z.of_nat (S idx) <= 2 ^ 64) by (apply Z.pow_le_mono_r; lia).
    destruct rest as [|b' rest'].
    + rewrite orb_true_r. cbn [from_bits_loop val bits_val length].
      split; [rewrite E1; lia|]. split; [constructor; [lia|constructor]|]. lia.
    + rewrite orb_false_r. destruct (Nat.eqb_spec (S idx) 64) as [E64|Hne].
      * destruct (IH 0 O ltac:(lia) ltac:(cbn; lia) ltac:(discriminate)) as (Ev & HF & HL).
        cbn [val]. rewrite Ev. split; [|split].
        -- rewrite E1. change (2 ^ Z.of_nat 0) with 1. rewrite E64 in HS. change (Z.of_nat 64) with 64 in HS.
           rewrite HS. ring.
        -- constructor; [lia|exact HF].
        -- cbn [length] in *. lia.
      * destruct (IH cur1 (S idx) ltac:(lia) Hc1 ltac:(discriminate)) as (Ev & HF & HL).
        split; [|split; [exact HF | cbn [length] in *; lia]].
        rewrite Ev, HS, E1. ring.
Qed.
Lemma pad_limbs_spec w n l : 0 <= w -> (length l <= n)%nat -> Forall (fun x => 0 <= x < 2 ^ w) l ->
  limbs w n (pad_limbs n l) /\ val w (pad_limbs n l) = val w l.
Proof.
  intros Hw Hl HF. unfold pad_limbs. split.
  - split; [rewrite app_length, repeat_length; lia|]. apply Forall_app. split; [exact HF|].
    apply (limbs_repeat0 w). lia.
  - rewrite val_app, val_repeat0 by lia. lia.
Qed.
Lemma from_bits_le_correct n bits : (length bits <= 64 * n)%nat ->
  limbs 64 n (bi_from_bits_le n bits) /\ val 64 (bi_from_bits_le n bits) = bits_val bits.
Proof.
  intros Hl. unfold bi_from_bits_le.
  destruct (from_bits_loop_spec bits 0 0 ltac:(lia) ltac:(cbn; lia) ltac:(auto)) as (E & HF & HL).
  destruct (pad_limbs_spec 64 n (from_bits_loop bits 0 0) ltac:(lia) ltac:(lia) HF) as [H1 H2].
  split; [exact H1|]. rewrite H2, E. change (2 ^ Z.of_nat 0) with 1. lia.
Qed.
Lemma from_bits_be_correct n bits : (length bits <= 64 * n)%nat ->
  limbs 64 n (bi_from_bits_be n bits) /\ val 64 (bi_from_bits_be n bits) = bits_val (rev bits).
Proof.
  intros Hl. apply (from_bits_le_correct n (rev bits)). rewrite rev_length. exact Hl.
Qed.
Lemma bits_roundtrip n a : limbs 64 n a ->
  bits_val (bi_to_bits_le a) = val 64 a /\ length (bi_to_bits_le a) = (64 * n)%nat /\
  bi_to_bits_be a = rev (bi_to_bits_le a) /\
  bi_from_bits_le n (bi_to_bits_le a) = a /\ bi_from_bits_be n (bi_to_bits_be a) = a.
Proof.
  intros Ha. pose proof (val_bound 64 n a ltac:(lia) Ha) as Hb.
  assert (EL : length (bi_to_bits_le a) = (64 * n)%nat).
  { unfold bi_to_bits_le. rewrite map_length, seq_length, (limbs_length _ _ _ Ha). reflexivity. }
  assert (EV : bits_val (bi_to_bits_le a) = val 64 a).
  { rewrite (to_bits_le_spec n) by auto. rewrite bits_val_testbits by lia.
    change (2 ^ Z.of_nat 0) with 1. rewrite Z.div_1_r. apply Z.mod_small.
    replace (Z.of_nat (64 * n)) with (64 * Z.of_nat n) by lia. lia. }
  split; [exact EV|]. split; [exact EL|]. split; [apply (to_bits_be_spec n); auto|].
  destruct (from_bits_le_correct n (bi_to_bits_le a) ltac:(lia)) as [H1 H2].
  assert (E1 : bi_from_bits_le n (bi_to_bits_le a) = a).
  { apply (val_inj 64 n); auto; try lia. }
  split; [exact E1|]. rewrite (to_bits_be_spec n) by auto.
  unfold bi_from_bits_be. rewrite rev_involutive. exact E1.
Qed.

(** bytes *)
Lemma byte_of_val n : forall a i, limbs 64 n a -> byte_of a i = (val 64 a / 2 ^ (8 * Z.of_nat i)) mod 2 ^ 8.
Proof.
  induction n as [|n IH]; intros a i Ha.
  - apply limbs_O in Ha. subst. unfold byte_of. cbn [val]. rewrite Z.div_0_l by (apply Z.pow_nonzero; lia).
    destruct (i / 8)%nat; reflexivity.
  - apply limbs_S in Ha. destruct Ha as (x & a' & -> & Hx & Ha). cbn [val].
    destruct (Nat.lt_ge_cases i 8) as [H|H].
    + unfold byte_of. rewrite Nat.div_small, Nat.mod_small by lia. cbn [nth_error]. unfold trunc.
      rewrite Z.shiftr_div_pow2 by lia.
      assert (E : 2 ^ 64 = 2 ^ (8 * Z.of_nat i) * (2 ^ (64 - 8 * Z.of_nat i - 8) * 2 ^ 8)).
      { rewrite <- !Z.pow_add_r by lia. f_equal. lia. }
      rewrite E at 1.
      replace (x + 2 ^ (8 * Z.of_nat i) * (2 ^ (64 - 8 * Z.of_nat i - 8) * 2 ^ 8) * val 64 a')
        with (x + (2 ^ (64 - 8 * Z.of_nat i - 8) * 2 ^ 8 * val 64 a') * 2 ^ (8 * Z.of_nat i)) by ring.
      rewrite Z.div_add by (apply Z.pow_nonzero; lia).
      replace (2 ^ (64 - 8 * Z.of_nat i - 8) * 2 ^ 8 * val 64 a')
        with (2 ^ (64 - 8 * Z.of_nat i - 8) * val 64 a' * 2 ^ 8) by ring.
      rewrite Z.mod_add by lia. reflexivity.
    + specialize (IH a' (i - 8)%nat Ha). unfold byte_of in IH |- *.
      replace (i / 8)%nat with (S ((i - 8) / 8))%nat.
      2:{ replace i with (1 * 8 + (i - 8))%nat at 2 by lia. rewrite Nat.div_add_l by lia. lia. }
      replace (i mod 8)%nat with ((i - 8) mod 8)%nat.
      2:{ replace i with ((i - 8) + 1 * 8)%nat at 2 by lia. rewrite Nat.mod_add by lia. lia. }
      cbn [nth_error]. rewrite IH.
      replace (8 * Z.of_nat i) with (64 + 8 * Z.of_nat (i - 8)) by lia.
      rewrite Z.pow_add_r by lia.
      rewrite <- Z.div_div by (try lia; apply pow2_pos; lia).
      rewrite (Z.mul_comm (2 ^ 64)), Z.div_add, (Z.div_small x) by lia. reflexivity.
Qed.
Lemma val8_bytes v n : forall s, 0 <= v ->
  val 8 (map (fun i => (v / 2 ^ (8 * Z.of_nat i)) mod 2 ^ 8) (seq s n)) =
  (v / 2 ^ (8 * Z.of_nat s)) mod 2 ^ (8 * Z.of_nat n).
Proof.
  induction n as [|n IH]; intros s Hv.
  - cbn [seq map val]. rewrite Z.mul_0_r. change (2 ^ 0) with 1. rewrite Z.mod_1_r. reflexivity.
  - cbn [seq map val]. rewrite IH by lia.
    replace (2 ^ (8 * Z.of_nat (S s))) with (2 ^ (8 * Z.of_nat s) * 2 ^ 8)
      by (rewrite <- Z.pow_add_r by lia; f_equal; lia).
    rewrite pow_mul by lia.
    assert (0 < 2 ^ (8 * Z.of_nat s)) by (apply pow2_pos; lia).
    assert (0 < 2 ^ (8 * Z.of_nat n)) by (apply pow2_pos; lia).
    rewrite <- Z.div_div by lia.
    set (x := v / 2 ^ (8 * Z.of_nat s)). rewrite Z.rem_mul_r by lia. lia.
Qed.
Lemma lor_shift_add cur b k : 0 <= k -> 0 <= cur < 2 ^ k -> 0 <= b ->
  Z.lor cur (Z.shiftl b k) = cur + 2 ^ k * b.
Proof.
  intros Hk Hc Hb. rewrite Z.lor_comm, Z.shiftl_mul_pow2 by lia.
  rewrite (lor_disjoint_add _ _ k); try lia. apply Z.mod_mul. pose proof (pow2_pos k). lia.
Qed.
Lemma from_bytes_loop_spec : forall bytes cur idx, (idx < 8)%nat ->
  Forall (fun x => 0 <= x < 2 ^ 8) bytes -> 0 <= cur < 2 ^ (8 * Z.of_nat idx) ->
  (bytes = [] -> cur = 0 /\ idx = O) ->
  val 64 (from_bytes_loop bytes cur idx) = cur + 2 ^ (8 * Z.of_nat idx) * val 8 bytes /\
  Forall (fun x => 0 <= x < 2 ^ 64) (from_bytes_loop bytes cur idx) /\
  (8 * length (from_bytes_loop bytes cur idx) < length bytes + idx + 8)%nat /\
  (length bytes + idx <= 8 * length (from_bytes_loop bytes cur idx))%nat.
Proof.
  induction bytes as [|b rest IH]; intros cur idx Hi HB Hc H0.
  - destruct (H0 eq_refl) as [-> ->]. cbn. split; [lia|]. split; [constructor|lia].
  - cbn [from_bytes_loop val length]. inversion HB as [|? ? Hb HB']; subst.
    assert (HP : 0 < 2 ^ (8 * Z.of_nat idx)) by (apply pow2_pos; lia).
    assert (HS : 2 ^ (8 * Z.of_nat (S idx)) = 2 ^ 8 * 2 ^ (8 * Z.of_nat idx)) by (apply pow_mul; lia).
    set (cur1 := Z.lor cur _).
    assert (E1 : cur1 = cur + 2 ^ (8 * Z.of_nat idx) * b) by (apply lor_shift_add; lia).
    assert (Hc1 : 0 <= cur1 < 2 ^ (8 * Z.of_nat (S idx))) by (rewrite E1, HS; nia).
    assert (H64 : 2 ^ (8 * Z.of_nat (S idx)) <= 2 ^ 64) by (apply Z.pow_le_mono_r; lia).
    destruct rest as [|b' rest'].
    + rewrite orb_true_r. cbn [from_bytes_loop val length].
      split; [rewrite E1; lia|]. split; [constructor; [lia|constructor]|]. lia.
    + rewrite orb_false_r. destruct (Nat.eqb_spec (S idx) 8) as [E64|Hne].
      * destruct (IH 0 O ltac:(lia) HB' ltac:(cbn; lia) ltac:(discriminate)) as (Ev & HF & HL & HL2).
        cbn [val] in *. rewrite Ev. split; [|split].
        -- rewrite E1. change (2 ^ (8 * Z.of_nat 0)) with 1. rewrite E64 in HS.
           change (2 ^ (8 * Z.of_nat 8)) with (2 ^ 64) in HS. rewrite HS. ring.
        -- constructor; [lia|exact HF].
        -- cbn [length] in *. lia.
      * destruct (IH cur1 (S idx) ltac:(lia) HB' Hc1 ltac:(discriminate)) as (Ev & HF & HL & HL2).
        split; [|split; [exact HF | cbn [length] in *; lia]].
        rewrite Ev, HS, E1. ring.
Qed.
Lemma from_bytes_correct n bytes : Forall (fun x => 0 <= x < 2 ^ 8) bytes ->
  ((length bytes <= 8 * n)%nat ->
   exists a, bi_from_bytes n bytes = Some a /\ limbs 64 n a /\ val 64 a = val 8 bytes) /\
  ((8 * n < length bytes)%nat -> bi_from_bytes n bytes = None).
Proof.
  intros HB. unfold bi_from_bytes.
  destruct (from_bytes_loop_spec bytes 0 0 ltac:(lia) HB ltac:(cbn; lia) ltac:(auto)) as (E & HF & HL & HL2).
  change (2 ^ (8 * Z.of_nat 0)) with 1 in E. split; intros Hl.
  - destruct (Nat.leb_spec (length (from_bytes_loop bytes 0 0)) n) as [Hle|Hgt]; [|lia].
    destruct (pad_limbs_spec 64 n (from_bytes_loop bytes 0 0) ltac:(lia) Hle HF) as [H1 H2].
    eexists. split; [reflexivity|]. split; [exact H1|]. rewrite H2, E. lia.
  - destruct (Nat.leb_spec (length (from_bytes_loop bytes 0 0)) n) as [Hle|Hgt]; [lia|reflexivity].
Qed.
Lemma bytes_roundtrip n a : limbs 64 n a ->
  limbs 8 (8 * n) (bi_to_bytes_le a) /\ val 8 (bi_to_bytes_le a) = val 64 a /\
  bi_to_bytes_be a = rev (bi_to_bytes_le a) /\
  bi_from_bytes_le n (bi_to_bytes_le a) = Some a /\ bi_from_bytes_be n (bi_to_bytes_be a) = Some a.
Proof.
  intros Ha. pose proof (val_bound 64 n a ltac:(lia) Ha) as Hb.
  assert (ES : bi_to_bytes_le a = map (fun i => (val 64 a / 2 ^ (8 * Z.of_nat i)) mod 2 ^ 8) (seq 0 (8 * n))).
  { unfold bi_to_bytes_le. rewrite (limbs_length _ _ _ Ha). apply map_ext. intros i.
    apply (byte_of_val n). exact Ha. }
  assert (HL : limbs 8 (8 * n) (bi_to_bytes_le a)).
  { rewrite ES. split; [rewrite map_length, seq_length; reflexivity|].
    apply Forall_forall. intros x Hx. apply in_map_iff in Hx. destruct Hx as (i & <- & _).
    apply Z.mod_pos_bound. lia. }
  assert (EV : val 8 (bi_to_bytes_le a) = val 64 a).
  { rewrite ES, val8_bytes by lia. change (2 ^ (8 * Z.of_nat 0)) with 1. rewrite Z.div_1_r.
    apply Z.mod_small. replace (8 * Z.of_nat (8 * n)) with (64 * Z.of_nat n) by lia. lia. }
  assert (EB : bi_to_bytes_be a = rev (bi_to_bytes_le a)).
  { unfold bi_to_bytes_be, bi_to_bytes_le. rewrite map_rev. reflexivity. }
  destruct HL as [HL1 HL2].
  destruct (from_bytes_correct n (bi_to_bytes_le a) HL2) as [Hf _].
  destruct (Hf ltac:(lia)) as (a' & E1 & Hl' & E2).
  assert (a' = a) by (apply (val_inj 64 n); auto; lia). subst a'.
  split; [split; auto|]. split; [exact EV|]. split; [exact EB|]. split; [exact E1|].
  rewrite EB. unfold bi_from_bytes_be. rewrite rev_involutive. exact E1.
Qed.

(** ** Bit extraction *)
Lemma extract_window w : forall l off, 0 < w -> Forall (fun x => 0 <= x < 2 ^ w) l ->
  val w l / 2 ^ (w * Z.of_nat off) = val w (skipn off l).
Proof.
  intros l off Hw. revert l. induction off as [|off IH]; intros l HF.
  - rewrite Z.mul_0_r. change (2 ^ 0) with 1. apply Z.div_1_r.
  - destruct l as [|x l]; [cbn [skipn val]; apply Z.div_0_l; apply Z.pow_nonzero; lia|].
    inversion HF as [|? ? Hx HF']; subst. cbn [skipn val]. rewrite pow_mul by lia.
    assert (0 < 2 ^ w) by (apply pow2_pos; lia).
    assert (0 < 2 ^ (w * Z.of_nat off)) by (apply pow2_pos; lia).
    rewrite <- Z.div_div by lia. rewrite (Z.mul_comm (2 ^ w)), Z.div_add, (Z.div_small x), Z.add_0_l by lia.
    apply IH; auto.
Qed.
Lemma skipn_cons (l : list Z) k x : nth_error l k = Some x -> skipn k l = x :: skipn (S k) l.
Proof. revert l. induction k as [|k IH]; intros [|y l] H; cbn in *; try congruence; auto. Qed.

Lemma extract_arith X y rr B1 B2 C D : 0 < B1 -> 0 < C -> B1 * B2 = D * C ->
  (X + B2 * (y mod B1)) mod C = (X + B2 * (y + B1 * B2 * rr)) mod C.
Proof.
  intros H1 HC E. pose proof (Z.div_mod y B1 ltac:(lia)) as Dy.
  replace (X + B2 * (y + B1 * B2 * rr))
    with (X + B2 * (y mod B1) + (D * (y / B1 + B2 * rr)) * C).
  - rewrite Z.mod_add by lia. reflexivity.
  - replace (D * (y / B1 + B2 * rr) * C) with (D * C * (y / B1 + B2 * rr)) by ring.
    rewrite <- E. rewrite Dy at 3. ring.
Qed.

Lemma extract_bits_correct w l off cnt : (0 < w <= 64)%nat -> Forall (fun x => 0 <= x < 2 ^ Z.of_nat w) l ->
  (off < w * length l)%nat -> (cnt < w)%nat ->
  extract_bits w l off cnt = Some ((val (Z.of_nat w) l / 2 ^ Z.of_nat off) mod 2 ^ Z.of_nat cnt).
Proof.
  intros Hw HF Hoff Hcnt. unfold extract_bits.
  set (zw := Z.of_nat w). set (k := (off / w)%nat). set (b := (off mod w)%nat).
  assert (Hb : (b < w)%nat) by (apply Nat.mod_upper_bound; lia).
  assert (Ho : off = (w * k + b)%nat) by (apply Nat.div_mod; lia).
  assert (Hk : (k < length l)%nat) by (apply Nat.div_lt_upper_bound; lia).
  rewrite (nth_nth_error l k Hk).
  set (x := nth k l 0).
  assert (Hx : 0 <= x < 2 ^ zw).
  { rewrite Forall_forall in HF. apply HF. apply nth_In. exact Hk. }
  assert (Ediff : (zw - Z.of_nat cnt) mod 2 ^ 64 = zw - Z.of_nat cnt).
  { apply Z.mod_small. lia. }
  rewrite Ediff.
  assert (Ev : val zw l / 2 ^ Z.of_nat off = val zw (skipn k l) / 2 ^ Z.of_nat b).
  { rewrite Ho. replace (Z.of_nat (w * k + b)) with (zw * Z.of_nat k + Z.of_nat b) by lia.
    rewrite Z.pow_add_r by lia. rewrite <- Z.div_div by (try lia; apply pow2_pos; lia).
    rewrite extract_window by (auto; lia). reflexivity. }
  rewrite Ev. rewrite (skipn_cons l k x) by (apply nth_nth_error; exact Hk). cbn [val].
  set (rest := val zw (skipn (S k) l)).
  assert (Hmask : forall r, 0 <= r -> Z.land r (Z.shiftl 1 (Z.of_nat cnt) - 1) = r mod 2 ^ Z.of_nat cnt).
  { intros r Hr. rewrite Z.shiftl_1_l. replace (2 ^ Z.of_nat cnt - 1) with (Z.ones (Z.of_nat cnt))
      by (rewrite Z.ones_equiv; lia). apply Z.land_ones. lia. }
  destruct (Nat.leb_spec w cnt); [lia|].
  assert (Ezw : 2 ^ zw = 2 ^ Z.of_nat b * 2 ^ (zw - Z.of_nat b)) by (rewrite <- Z.pow_add_r by lia; f_equal; lia).
  assert (Pb : 0 < 2 ^ Z.of_nat b) by (apply pow2_pos; lia).
  assert (Pd : 0 < 2 ^ (zw - Z.of_nat b)) by (apply pow2_pos; lia).
  assert (Pc : 0 < 2 ^ Z.of_nat cnt) by (apply pow2_pos; lia).
  assert (Edecomp : (x + 2 ^ zw * rest) / 2 ^ Z.of_nat b = x / 2 ^ Z.of_nat b + 2 ^ (zw - Z.of_nat b) * rest).
  { rewrite Ezw. replace (x + 2 ^ Z.of_nat b * 2 ^ (zw - Z.of_nat b) * rest)
      with (x + (2 ^ (zw - Z.of_nat b) * rest) * 2 ^ Z.of_nat b) by ring.
    rewrite Z.div_add by lia. reflexivity. }
  rewrite Edecomp.
  destruct (Z.ltb_spec (Z.of_nat b) (zw - Z.of_nat cnt)) as [H1|H1].
  - cbn [orb option_map]. rewrite Z.shiftr_div_pow2 by lia. rewrite Hmask by (apply Z.div_pos; lia).
    f_equal. assert (2 ^ (zw - Z.of_nat b) = 2 ^ (zw - Z.of_nat b - Z.of_nat cnt) * 2 ^ Z.of_nat cnt) as ->
      by (rewrite <- Z.pow_add_r by lia; f_equal; lia).
    replace (2 ^ (zw - Z.of_nat b - Z.of_nat cnt) * 2 ^ Z.of_nat cnt * rest)
      with (2 ^ (zw - Z.of_nat b - Z.of_nat cnt) * rest * 2 ^ Z.of_nat cnt) by ring.
    rewrite Z.mod_add by lia. reflexivity.
  - cbn [orb]. destruct (Nat.eqb_spec k (length l - 1)) as [Hlast|Hnl].
    + cbn [option_map]. rewrite Z.shiftr_div_pow2 by lia. rewrite Hmask by (apply Z.div_pos; lia).
      assert (rest = 0) as ->. { unfold rest. rewrite skipn_all2 by lia. reflexivity. }
      f_equal. f_equal. lia.
    + assert (Hk1 : (S k < length l)%nat) by lia. rewrite (nth_nth_error l (S k) Hk1).
      set (y := nth (S k) l 0).
      assert (Hy : 0 <= y < 2 ^ zw).
      { rewrite Forall_forall in HF. apply HF. apply nth_In. exact Hk1. }
      destruct (Nat.eqb_spec b 0) as [Hb0|Hb0]; [lia|].
      cbn [option_map]. rewrite Z.shiftr_div_pow2 by lia.
      assert (Er : rest = y + 2 ^ zw * val zw (skipn (S (S k)) l)).
      { unfold rest. rewrite (skipn_cons l (S k) y) by (apply nth_nth_error; exact Hk1). reflexivity. }
      set (rr := val zw (skipn (S (S k)) l)) in Er.
      assert (Hd : 0 <= x / 2 ^ Z.of_nat b < 2 ^ (zw - Z.of_nat b)).
      { split; [apply Z.div_pos; lia | apply Z.div_lt_upper_bound; [lia|]; rewrite <- Ezw; lia]. }
      assert (Et : trunc zw (Z.shiftl y (zw - Z.of_nat b)) = 2 ^ (zw - Z.of_nat b) * (y mod 2 ^ Z.of_nat b)).
      { unfold trunc. rewrite Z.shiftl_mul_pow2 by lia. rewrite Ezw, (Z.mul_comm y), (Z.mul_comm (2 ^ Z.of_nat b)).
        apply Z.mul_mod_distr_l; lia. }
      pose proof (Z.mod_pos_bound y (2 ^ Z.of_nat b) Pb) as Hym.
      assert (El : Z.lor (x / 2 ^ Z.of_nat b) (trunc zw (Z.shiftl y (zw - Z.of_nat b)))
                   = x / 2 ^ Z.of_nat b + 2 ^ (zw - Z.of_nat b) * (y mod 2 ^ Z.of_nat b)).
      { rewrite Et, Z.lor_comm, (lor_disjoint_add _ _ (zw - Z.of_nat b)); try lia.
        rewrite Z.mul_comm. apply Z.mod_mul. lia. }
      rewrite El, Hmask by (apply Z.add_nonneg_nonneg; [|apply Z.mul_nonneg_nonneg]; clear - Hd Hym Pd; lia). f_equal.
      rewrite Er, Ezw. apply extract_arith with (D := 2 ^ (zw - Z.of_nat cnt)); auto.
      rewrite <- Ezw, <- Z.pow_add_r by (clear - Hcnt; lia). f_equal. clear. lia.
Qed.

(** ** NAF *)
Lemma bi_of_small_spec n x : (0 < n)%nat -> 0 <= x < 2 ^ 64 ->
  limbs 64 n (bi_of_small n x) /\ val 64 (bi_of_small n x) = x.
Proof.
  intros Hn Hx. destruct n as [|n]; [lia|]. cbn [bi_of_small]. split.
  - apply limbs_cons. split; [exact Hx|]. apply limbs_repeat0. lia.
  - cbn [val]. rewrite val_repeat0. lia.
Qed.
Lemma hd_mod4 n v : limbs 64 (S n) v -> hd 0 v mod 4 = val 64 v mod 4.
Proof.
  intros H. apply limbs_S in H. destruct H as (x & l & -> & Hx & Hl). cbn [hd val].
  replace (x + 2 ^ 64 * val 64 l) with (x + (2 ^ 62 * val 64 l) * 4)
    by (change (2 ^ 64) with (4 * 2 ^ 62); ring).
  rewrite Z.mod_add by lia. reflexivity.
Qed.

Lemma naf_loop_correct n : forall k fuel v, (0 < n)%nat -> (k + 2 <= fuel)%nat ->
  limbs 64 n v -> val 64 v <= 2 ^ Z.of_nat k -> val 64 v < 2 ^ (64 * Z.of_nat n) - 1 ->
  exists ds, naf_loop fuel v = Some ds /\
    Forall (fun d => d = -1 \/ d = 0 \/ d = 1) ds /\
    non_adjacent ds /\ digits_val ds = val 64 v /\ (length ds <= k + 1)%nat /\
    (Z.even (val 64 v) = true -> hd 0 ds = 0).
Proof.
  induction k as [|k IH]; intros fuel v Hn Hf Hv Hle Hlt;
    (destruct fuel as [|fuel]; [lia|]); cbn [naf_loop];
    rewrite (bi_is_zero_val 64 n) by (auto; lia);
    pose proof (val_bound 64 n v ltac:(lia) Hv) as Hb;
    (destruct (Z.eqb_spec (val 64 v) 0) as [E0|E0];
     [exists []; cbn; rewrite E0; repeat split; auto; try constructor; lia|]);
    (destruct n as [|n']; [lia|]);
    rewrite (bi_is_odd_val n') by auto;
    rewrite (hd_mod4 n') by auto;
    set (n := S n') in *.
  - (* k = 0 : v = 1 *)
    change (2 ^ Z.of_nat 0) with 1 in Hle. assert (E1 : val 64 v = 1) by lia.
    rewrite E1. change (Z.odd 1) with true. change (2 - 1 mod 4) with 1. cbv iota. change (0 <=? 1) with true. cbv iota.
    rewrite (limbs_length _ _ _ Hv).
    destruct (bi_of_small_spec n 1 Hn ltac:(lia)) as [Hs1 Hs2].
    assert (Hsub : val 64 (bi_sub v (bi_of_small n 1)) = 0) by (rewrite (bi_sub_val_exact n); auto; lia).
    destruct (bi_div_by_2_correct n _ (bi_sub_limbs n _ _ Hv Hs1)) as [Hd1 Hd2].
    rewrite Hsub in Hd2. change (0 / 2) with 0 in Hd2.
    destruct fuel as [|fuel]; [lia|]. cbn [naf_loop]. rewrite (bi_is_zero_val 64 n) by (auto; lia).
    rewrite Hd2. cbn. exists [1]. repeat split; auto; lia.
  - assert (HM : 2 ^ 64 <= 2 ^ (64 * Z.of_nat n)) by (apply Z.pow_le_mono_r; unfold n; lia).
    assert (Hk : 2 ^ Z.of_nat (S k) = 2 * 2 ^ Z.of_nat k).
    { replace (Z.of_nat (S k)) with (1 + Z.of_nat k) by lia. rewrite Z.pow_add_r by lia. reflexivity. }
    rewrite (limbs_length _ _ _ Hv).
    destruct (bi_of_small_spec n 1 Hn ltac:(lia)) as [Hs1 Hs2].
    set (st := if Z.odd (val 64 v) then _ else _).
    assert (exists z v1, st = (z, v1) /\ limbs 64 n v1 /\ val 64 v1 = val 64 v - z /\
              (z = -1 \/ z = 0 \/ z = 1) /\ Z.even (val 64 v1) = true /\
              (z <> 0 -> Z.even (val 64 v1 / 2) = true) /\
              (Z.even (val 64 v) = true -> z = 0)) as (z & v1 & Est & Hl1 & Ev1 & Hz & Hev & Hev2 & Hz0).
    { unfold st. rewrite <- Z.negb_even. destruct (Z.even (val 64 v)) eqn:Eev; cbn [negb].
      - exists 0, v. repeat split; auto; try apply Hv; try lia.
      - assert (Hodd : val 64 v mod 2 = 1) by (rewrite Zmod_even, Eev; reflexivity).
        assert (val 64 v mod 4 = 1 \/ val 64 v mod 4 = 3) as [E4|E4] by lia; rewrite E4.
        + change (2 - 1) with 1. change (0 <=? 1) with true. cbv iota.
          exists 1, (bi_sub v (bi_of_small n 1)).
          assert (Evs : val 64 (bi_sub v (bi_of_small n 1)) = val 64 v - 1).
          { rewrite (bi_sub_val_exact n); auto; lia. }
          split; [reflexivity|]. split; [apply bi_sub_limbs; auto|]. split; [exact Evs|].
          split; [auto|]. rewrite Evs.
          split; [apply Z.even_spec; exists ((val 64 v - 1) / 2); lia|].
          split; [|discriminate]. intros _. apply Z.even_spec. exists ((val 64 v - 1) / 4). lia.
        + change (2 - 3) with (-1). change (0 <=? -1) with false. cbv iota. change (- -1) with 1.
          exists (-1), (bi_add v (bi_of_small n 1)).
          assert (Evs : val 64 (bi_add v (bi_of_small n 1)) = val 64 v + 1).
          { rewrite (bi_add_val_exact n); auto; lia. }
          split; [reflexivity|]. split; [apply bi_add_limbs; auto|]. rewrite Evs. split; [lia|].
          split; [auto|].
          split; [apply Z.even_spec; exists ((val 64 v + 1) / 2); lia|].
          split; [|discriminate]. intros _. apply Z.even_spec. exists ((val 64 v + 1) / 4). lia. }
    rewrite Est. destruct (bi_div_by_2_correct n v1 Hl1) as [Hd1 Hd2].
    apply Z.even_spec in Hev. destruct Hev as [h Eh].
    assert (Eh2 : val 64 (bi_div_by_2 v1) = h) by (rewrite Hd2, Eh; lia).
    assert (Hodd1 : z <> 0 -> val 64 v <= 2 ^ Z.of_nat (S k) - 1).
    { intros Hzn. destruct (Z.even (val 64 v)) eqn:Ee; [exfalso; apply Hzn; auto|].
      assert (val 64 v mod 2 = 1) by (rewrite Zmod_even, Ee; reflexivity).
      rewrite Hk in *. lia. }
    destruct (IH fuel (bi_div_by_2 v1) Hn ltac:(lia) Hd1) as (ds & E & HF & Hna & Hdv & Hlen & Hhd).
    { rewrite Eh2. destruct (Z.eq_dec z 0); lia. }
    { rewrite Eh2. lia. }
    rewrite E. cbn [option_map]. exists (z :: ds). split; [reflexivity|].
    split; [constructor; auto|]. split; [|split; [|split]].
    + destruct ds as [|d ds']; [exact I|]. cbn [non_adjacent]. split; [|exact Hna].
      destruct (Z.eq_dec z 0) as [Hz1|Hz1]; [left; exact Hz1|right].
      cbn [hd] in Hhd. apply Hhd. rewrite Hd2. apply Hev2. exact Hz1.
    + cbn [digits_val]. rewrite Hdv, Eh2. lia.
    + cbn [length]. lia.
    + cbn [hd]. exact Hz0.
Qed.

Lemma bi_to_naf_correct n v : (0 < n)%nat -> limbs 64 n v -> val 64 v < 2 ^ (64 * Z.of_nat n) - 1 ->
  exists ds, bi_to_naf v = Some ds /\ Forall (fun d => d = -1 \/ d = 0 \/ d = 1) ds /\
    non_adjacent ds /\ digits_val ds = val 64 v /\ (length ds <= 64 * n + 1)%nat.
Proof.
  intros Hn Hv Hlt. unfold bi_to_naf. rewrite (limbs_length _ _ _ Hv).
  destruct (naf_loop_correct n (64 * n) (64 * n + 2) v Hn ltac:(lia) Hv) as (ds & H1 & H2 & H3 & H4 & H5 & _).
  - replace (Z.of_nat (64 * n)) with (64 * Z.of_nat n) by lia. lia.
  - exact Hlt.
  - exists ds. auto.
Qed.

Lemma bi_to_naf_max n v : (0 < n)%nat -> limbs 64 n v -> val 64 v = 2 ^ (64 * Z.of_nat n) - 1 ->
  bi_to_naf v = Some [-1].
Proof.
  intros Hn Hv E. unfold bi_to_naf. rewrite (limbs_length _ _ _ Hv).
  replace (64 * n + 2)%nat with (S (S (64 * n)))%nat by lia. cbn [naf_loop].
  assert (HM : 2 ^ 64 <= 2 ^ (64 * Z.of_nat n)) by (apply Z.pow_le_mono_r; lia).
  destruct n as [|n']; [lia|]. set (n := S n') in *.
  rewrite (bi_is_zero_val 64 n), (bi_is_odd_val n'), (hd_mod4 n') by (auto; lia).
  assert (Hm4 : val 64 v mod 4 = 3).
  { rewrite E. replace (64 * Z.of_nat n) with (2 + (64 * Z.of_nat n - 2)) by (unfold n; lia).
    rewrite Z.pow_add_r by (unfold n; lia). change (2 ^ 2) with 4.
    replace (4 * 2 ^ (64 * Z.of_nat n - 2) - 1) with (3 + (2 ^ (64 * Z.of_nat n - 2) - 1) * 4) by ring.
    rewrite Z.mod_add by lia. reflexivity. }
  rewrite Hm4. assert (Ho : Z.odd (val 64 v) = true).
  { rewrite Zodd_mod. apply Zeq_is_eq_bool. lia. }
  rewrite Ho. destruct (Z.eqb_spec (val 64 v) 0); [lia|].
  change (2 - 3) with (-1). change (0 <=? -1) with false. cbv iota. change (- -1) with 1.
  rewrite (limbs_length _ _ _ Hv).
  destruct (bi_of_small_spec n 1 Hn ltac:(lia)) as [Hs1 Hs2].
  assert (Evs : val 64 (bi_add v (bi_of_small n 1)) = 0).
  { rewrite (bi_add_val n) by auto. rewrite Hs2, E.
    replace (2 ^ (64 * Z.of_nat n) - 1 + 1) with (2 ^ (64 * Z.of_nat n)) by ring. apply Z.mod_same. lia. }
  destruct (bi_div_by_2_correct n _ (bi_add_limbs n _ _ Hv Hs1)) as [Hd1 Hd2].
  rewrite Evs in Hd2. change (0 / 2) with 0 in Hd2.
  rewrite (bi_is_zero_val 64 n) by (auto; lia). rewrite Hd2. reflexivity.
Qed.

(** ** Random *)
Lemma random_loop_correct n max : forall k fuel v, (k < fuel)%nat -> limbs 64 n v -> limbs 64 n max ->
  val 64 v < 2 ^ Z.of_nat k -> 0 < val 64 max ->
  exists r, random_loop fuel v max = Some r /\ limbs 64 n r /\ 0 <= val 64 r < val 64 max.
Proof.
  induction k as [|k IH]; intros fuel v Hf Hv Hm Hlt H0; (destruct fuel as [|fuel]; [lia|]); cbn [random_loop];
    rewrite (bi_geb_val n) by auto; pose proof (val_bound 64 n v ltac:(lia) Hv) as Hb.
  - change (2 ^ Z.of_nat 0) with 1 in Hlt. destruct (Z.leb_spec (val 64 max) (val 64 v)); [lia|].
    exists v. repeat split; auto; try apply Hv; lia.
  - destruct (Z.leb_spec (val 64 max) (val 64 v)).
    + destruct (bi_div_by_2_correct n v Hv) as [H1 H2]. apply IH; auto; [lia|].
      rewrite H2. apply Z.div_lt_upper_bound; [lia|].
      replace (Z.of_nat (S k)) with (1 + Z.of_nat k) in Hlt by lia. rewrite Z.pow_add_r in Hlt by lia. lia.
    + exists v. repeat split; auto; try apply Hv; lia.
Qed.
Lemma bi_random_correct n v max : limbs 64 n v -> limbs 64 n max -> 0 < val 64 max ->
  exists r, bi_random v max = Some r /\ limbs 64 n r /\ 0 <= val 64 r < val 64 max.
Proof.
  intros Hv Hm H0. unfold bi_random. rewrite (limbs_length _ _ _ Hv).
  apply random_loop_correct with (k := (64 * n)%nat); auto; try lia.
  replace (Z.of_nat (64 * n)) with (64 * Z.of_nat n) by lia. apply val_bound; auto; lia.
Qed.
