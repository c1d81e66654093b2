(** MontgomeryInverse (binary extended Euclid). *)
From Coq Require Import ZArith List Bool Lia Znumtheory.
From Coq Require Import ZifyBool ZifyNat.
From Verif Require Import BigIntModel BigIntSpec BigIntProof BigIntProof2 PrimeFieldProof.
Import ListNotations.
Open Scope Z_scope.

Definition cong (m x y : Z) : Prop := (m | x - y).
Lemma cong_refl m x : cong m x x. Proof. exists 0. ring. Qed.
Lemma cong_trans m x y z : cong m x y -> cong m y z -> cong m x z.
Proof. intros [k E] [l F]. exists (k + l). lia. Qed.
Lemma cong_cancel2 m x y : Z.odd m = true -> cong m (2 * x) (2 * y) -> cong m x y.
Proof.
  unfold cong. intros Ho D. replace (2 * x - 2 * y) with (2 * (x - y)) in D by ring.
  apply Gauss in D; [exact D|]. apply rel_prime_sym. apply prime_rel_prime; [apply prime_2|].
  intros [k Ek]. rewrite Ek, Z.odd_mul in Ho. change (Z.odd 2) with false in Ho.
  rewrite andb_false_r in Ho. discriminate.
Qed.

Lemma set_top_bit_val n a : limbs 64 (S n) a -> 2 * val 64 a < 2 ^ (64 * Z.of_nat (S n)) ->
  limbs 64 (S n) (set_top_bit a) /\ 2 * val 64 (set_top_bit a) = 2 * val 64 a + 2 ^ (64 * Z.of_nat (S n)).
Proof.
  intros Ha Hlt.
  assert (E : set_top_bit a = bi_set_bit a (64 * n + 63) true).
  { unfold set_top_bit, bi_set_bit. rewrite (limbs_length _ _ _ Ha).
    replace ((64 * n + 63) / 64)%nat with n by (symmetry; rewrite Nat.mul_comm, Nat.div_add_l by lia; change (63 / 64)%nat with O; lia).
    replace ((64 * n + 63) mod 64)%nat with 63%nat
      by (symmetry; rewrite Nat.mul_comm, Nat.add_comm, Nat.mod_add by lia; reflexivity).
    replace (S n - 1)%nat with n by lia. reflexivity. }
  rewrite E. set (i := (64 * n + 63)%nat).
  assert (EP : 2 ^ (64 * Z.of_nat (S n)) = 2 * 2 ^ Z.of_nat i).
  { rewrite <- Z.pow_succ_r by lia. f_equal. unfold i. lia. }
  rewrite EP in *.
  pose proof (val_bound 64 _ _ ltac:(lia) Ha) as Hb.
  destruct (bi_set_bit_val (S n) a i Ha ltac:(unfold i; lia)) as [Hl Ev].
  - rewrite Z.testbit_eqb by lia. rewrite Z.div_small by lia. reflexivity.
  - split; [exact Hl|]. rewrite Ev. lia.
Qed.

Section Inv.
  Variables (n : nat) (m : list Z) (spare : bool).
  Hypothesis Hm : limbs 64 (S n) m.
  Let p := val 64 m.
  Let R := 2 ^ (64 * Z.of_nat (S n)).
  Hypothesis Hodd : Z.odd p = true.
  Hypothesis Hspare : spare = true -> 2 * p <= R.

  Lemma half_mod_spec b : limbs 64 (S n) b -> val 64 b < p ->
    limbs 64 (S n) (half_mod spare m b) /\ 0 <= val 64 (half_mod spare m b) < p /\
    cong p (2 * val 64 (half_mod spare m b)) (val 64 b).
  Proof.
    intros Hb Hlt. pose proof (val_bound 64 _ _ ltac:(lia) Hb) as Bb.
    pose proof (val_bound 64 _ _ ltac:(lia) Hm) as Bm. fold p in Bm. fold R in Bm, Bb.
    unfold half_mod. rewrite (bi_is_even_val n) by exact Hb.
    destruct (Z.even (val 64 b)) eqn:Ee.
    - destruct (bi_div_by_2_correct (S n) b Hb) as [Hl Ev]. rewrite Ev.
      apply Z.even_spec in Ee. destruct Ee as [h Eh]. rewrite Eh, Z.mul_comm, Z.div_mul by lia.
      split; [exact Hl|]. split; [lia|]. exists 0. lia.
    - destruct (bi_add_carry b m) as [b1 carry] eqn:E. unfold bi_add_carry in E.
      apply do_add_spec with (n := S n) in E; auto; try lia.
      destruct E as (E & Hl1 & Hc). rewrite Z.add_0_r in E. fold R p in E.
      destruct (bi_div_by_2_correct (S n) b1 Hl1) as [Hl Ev].
      assert (Hsum : exists h, val 64 b + p = 2 * h).
      { assert (Z.even (val 64 b + p) = true).
        { rewrite Z.even_add, Ee. rewrite <- Z.negb_odd, Hodd. reflexivity. }
        apply Z.even_spec in H. exact H. }
      destruct Hsum as [h Eh].
      pose proof (val_bound 64 _ _ ltac:(lia) Hl1) as B1. fold R in B1.
      assert (ER : R = 2 * (R / 2)).
      { unfold R. replace (64 * Z.of_nat (S n)) with (Z.succ (64 * Z.of_nat (S n) - 1)) by lia.
        rewrite Z.pow_succ_r by lia. rewrite Z.mul_comm at 2. rewrite Z.div_mul by lia. reflexivity. }
      assert (Hh : limbs 64 (S n) (if spare then bi_div_by_2 b1 else if negb (carry =? 0) then set_top_bit (bi_div_by_2 b1) else bi_div_by_2 b1)
        /\ val 64 (if spare then bi_div_by_2 b1 else if negb (carry =? 0) then set_top_bit (bi_div_by_2 b1) else bi_div_by_2 b1) = h).
      { assert (H01 : carry = 0 \/ carry = 1) by lia.
        assert (Hbh : val 64 (bi_div_by_2 b1) = h - (R / 2) * carry).
        { rewrite Ev. rewrite Eh in E.
          replace (val 64 b1) with ((h - R / 2 * carry) * 2) by (rewrite ER in E; lia).
          apply Z.div_mul. lia. }
        destruct spare eqn:Es.
        - specialize (Hspare eq_refl). assert (carry = 0) by nia. subst carry.
          split; [exact Hl|]. lia.
        - destruct H01 as [-> | ->]; cbn [Z.eqb negb].
          + split; [exact Hl|]. lia.
          + destruct (set_top_bit_val n (bi_div_by_2 b1) Hl) as [H1 H2].
            { fold R. rewrite Ev. assert (2 * (val 64 b1 / 2) <= val 64 b1) by (apply Z.mul_div_le; lia). lia. }
            split; [exact H1|]. fold R in H2. lia. }
      destruct Hh as [H1 H2]. split; [exact H1|]. rewrite H2. split; [lia|]. exists 1. lia.
  Qed.

  Lemma strip_twos_spec a r2 v : forall k fuel u b, (k < fuel)%nat ->
    limbs 64 (S n) u -> 0 < val 64 u < 2 ^ Z.of_nat k -> limbs 64 (S n) b -> val 64 b < p ->
    cong p (a * val 64 b) (r2 * val 64 u) -> rel_prime (val 64 u) v ->
    exists u1 b1, strip_twos spare m fuel u b = Some (u1, b1) /\
      limbs 64 (S n) u1 /\ 0 < val 64 u1 /\ Z.odd (val 64 u1) = true /\
      limbs 64 (S n) b1 /\ 0 <= val 64 b1 < p /\ cong p (a * val 64 b1) (r2 * val 64 u1) /\
      rel_prime (val 64 u1) v /\
      (if Z.even (val 64 u) then 2 * val 64 u1 <= val 64 u else u1 = u /\ b1 = b).
  Proof.
    induction k as [|k IH]; intros fuel u b Hf Hu Hpos Hb Hlt Hc Hrp.
    { change (2 ^ Z.of_nat 0) with 1 in Hpos. lia. }
    destruct fuel as [|fuel]; [lia|]. cbn [strip_twos]. rewrite (bi_is_even_val n) by exact Hu.
    pose proof (val_bound 64 _ _ ltac:(lia) Hb) as Bb.
    destruct (Z.even (val 64 u)) eqn:Ee.
    - destruct (bi_div_by_2_correct (S n) u Hu) as [Hl Ev].
      destruct (half_mod_spec b Hb Hlt) as (Hl2 & Hr2 & Hc2).
      apply Z.even_spec in Ee. destruct Ee as [h Eh].
      assert (Ev' : val 64 (bi_div_by_2 u) = h) by (rewrite Ev, Eh, Z.mul_comm, Z.div_mul; lia).
      rewrite Nat2Z.inj_succ, Z.pow_succ_r in Hpos by lia.
      destruct (IH fuel (bi_div_by_2 u) (half_mod spare m b)) as (u1 & b1 & E1 & H1 & H2 & H3 & H4 & H5 & H6 & H7 & H8); auto; try lia.
      + rewrite Ev'. apply cong_cancel2; [exact Hodd|].
        apply cong_trans with (a * val 64 b).
        * destruct Hc2 as [q Eq]. exists (a * q).
          replace (2 * (a * val 64 (half_mod spare m b)) - a * val 64 b) with (a * (2 * val 64 (half_mod spare m b) - val 64 b)) by ring.
          rewrite Eq. ring.
        * rewrite Eh in Hc. replace (2 * (r2 * h)) with (r2 * (2 * h)) by ring. exact Hc.
      + rewrite Ev'. rewrite Eh in Hrp. apply rel_prime_sym. apply rel_prime_sym in Hrp.
        apply rel_prime_div with (2 := (Zdivide_intro h (2 * h) 2 eq_refl)) in Hrp || idtac.
        apply rel_prime_sym. apply rel_prime_sym in Hrp. apply rel_prime_div with (p := 2 * h); auto.
        exists 2. ring.
      + exists u1, b1. repeat (split; [assumption|]).
        rewrite Ev' in H8. destruct (Z.even h).
        * lia.
        * destruct H8 as [-> _]. lia.
    - exists u, b. repeat (split; [solve [auto; try lia]|]).
      split; [rewrite <- Z.negb_even, Ee; reflexivity|].
      repeat (split; [solve [auto; try lia]|]). auto.
  Qed.

  Definition gm (u v : Z) : Z := if Z.even (u * v) then u * v / 2 else u * v.

  Lemma bi_sub_spec_le x y : limbs 64 (S n) x -> limbs 64 (S n) y -> val 64 y <= val 64 x ->
    limbs 64 (S n) (bi_sub x y) /\ val 64 (bi_sub x y) = val 64 x - val 64 y.
  Proof. intros. split; [apply bi_sub_limbs; auto | apply (bi_sub_val_exact (S n)); auto]. Qed.

  Lemma mod_diff b c : limbs 64 (S n) b -> limbs 64 (S n) c -> val 64 b < p -> val 64 c < p ->
    let d := if bi_geb b c then bi_sub b c else bi_add b (bi_sub m c) in
    limbs 64 (S n) d /\ 0 <= val 64 d < p /\ cong p (val 64 d) (val 64 b - val 64 c).
  Proof.
    intros Hb Hc Lb Lc. cbv zeta. rewrite (bi_geb_val (S n)) by auto.
    pose proof (val_bound 64 _ _ ltac:(lia) Hb) as Bb. pose proof (val_bound 64 _ _ ltac:(lia) Hc) as Bc.
    pose proof (val_bound 64 _ _ ltac:(lia) Hm) as Bm. fold p in Bm. fold R in Bm.
    destruct (Z.leb_spec (val 64 c) (val 64 b)).
    - destruct (bi_sub_spec_le b c Hb Hc ltac:(lia)) as [H1 H2]. split; [exact H1|]. rewrite H2.
      split; [lia|]. apply cong_refl.
    - destruct (bi_sub_spec_le m c Hm Hc ltac:(fold p; lia)) as [H1 H2]. fold p in H2.
      split; [apply bi_add_limbs; auto|].
      assert (E : val 64 (bi_add b (bi_sub m c)) = val 64 b + (p - val 64 c)).
      { rewrite <- H2. apply (bi_add_val_exact (S n)); auto. fold R. lia. }
      rewrite E. split; [lia|]. exists 1. ring.
  Qed.

  Lemma odd_sub_even x y : Z.odd x = true -> Z.odd y = true -> Z.even (x - y) = true.
  Proof. intros H1 H2. rewrite Z.even_sub, <- !Z.negb_odd, H1, H2. reflexivity. Qed.
  Lemma gm_half x y k : 0 < y -> Z.odd x = true -> Z.odd y = true -> 0 < x - y ->
    x * y < 2 ^ Z.of_nat (S k) -> gm (x - y) y < 2 ^ Z.of_nat k /\ gm y (x - y) < 2 ^ Z.of_nat k.
  Proof.
    intros Hy Ox Oy Hd Hlt. rewrite Nat2Z.inj_succ, Z.pow_succ_r in Hlt by lia.
    unfold gm. rewrite (Z.mul_comm y (x - y)), Z.even_mul, (odd_sub_even x y Ox Oy). cbn [orb].
    assert ((x - y) * y / 2 < 2 ^ Z.of_nat k); [|auto].
    apply Z.div_lt_upper_bound; [lia|]. nia.
  Qed.
  Lemma gm_bound u v u1 v1 : 0 < u1 -> 0 < v1 ->
    (if Z.even u then 2 * u1 <= u else u1 = u) -> (if Z.even v then 2 * v1 <= v else v1 = v) ->
    u1 * v1 <= gm u v.
  Proof.
    intros Hu Hv H1 H2. unfold gm. rewrite Z.even_mul.
    destruct (Z.even u); destruct (Z.even v); cbn [orb]; try (subst; lia).
    - apply Z.div_le_lower_bound; [lia|]. nia.
    - subst. apply Z.div_le_lower_bound; [lia|]. nia.
    - subst. apply Z.div_le_lower_bound; [lia|]. nia.
  Qed.

  Lemma minv_loop_spec a r2 inner : (64 * S n < inner)%nat -> forall k fuel u v b c, (k <= fuel)%nat ->
    limbs 64 (S n) u -> limbs 64 (S n) v -> 0 < val 64 u -> 0 < val 64 v ->
    limbs 64 (S n) b -> limbs 64 (S n) c -> val 64 b < p -> val 64 c < p ->
    cong p (a * val 64 b) (r2 * val 64 u) -> cong p (a * val 64 c) (r2 * val 64 v) ->
    rel_prime (val 64 u) (val 64 v) -> gm (val 64 u) (val 64 v) < 2 ^ Z.of_nat k ->
    exists out, minv_loop spare m inner fuel u v b c = Some out /\
      limbs 64 (S n) out /\ 0 <= val 64 out < p /\ cong p (a * val 64 out) r2.
  Proof.
    intros Hin. induction k as [|k IH];
      intros fuel u v b c Hf Hu Hv Pu Pv Hb Hc Lb Lc Cb Cc Hrp Hg.
    { exfalso. change (2 ^ Z.of_nat 0) with 1 in Hg. unfold gm in Hg.
      destruct (Z.even (val 64 u * val 64 v)) eqn:Ee; [|nia].
      apply Z.even_spec in Ee. destruct Ee as [h Eh]. rewrite Eh, Z.mul_comm, Z.div_mul in Hg by lia. nia. }
    pose proof (val_bound 64 _ _ ltac:(lia) Hb) as Bb. pose proof (val_bound 64 _ _ ltac:(lia) Hc) as Bc.
    pose proof (val_bound 64 _ _ ltac:(lia) Hu) as Bu. pose proof (val_bound 64 _ _ ltac:(lia) Hv) as Bv.
    destruct fuel as [|fuel]; [lia|]. cbn [minv_loop].
    rewrite !(bi_is_one_val (S n)) by auto.
    destruct (Z.eqb_spec (val 64 u) 1) as [Eu|Eu]; cbn [negb andb].
    { exists b. rewrite Eu, Z.mul_1_r in Cb. repeat split; auto; try lia; apply Hb. }
    destruct (Z.eqb_spec (val 64 v) 1) as [Ev|Ev]; cbn [negb andb].
    { exists c. rewrite Ev, Z.mul_1_r in Cc. repeat split; auto; try lia; apply Hc. }
    replace (64 * Z.of_nat (S n)) with (Z.of_nat (64 * S n)) in Bu, Bv by lia.
    destruct (strip_twos_spec a r2 (val 64 v) (64 * S n) inner u b Hin Hu ltac:(lia) Hb Lb Cb Hrp)
      as (u1 & b1 & E1 & Hu1 & Pu1 & Ou1 & Hb1 & Bb1 & Cb1 & Hrp1 & Su).
    rewrite E1.
    destruct (strip_twos_spec a r2 (val 64 u1) (64 * S n) inner v c Hin Hv ltac:(lia) Hc Lc Cc (rel_prime_sym _ _ Hrp1))
      as (v1 & c1 & E2 & Hv1 & Pv1 & Ov1 & Hc1 & Bc1 & Cc1 & Hrp2 & Sv).
    rewrite E2.
    assert (Hg1 : val 64 u1 * val 64 v1 < 2 ^ Z.of_nat (S k)).
    { eapply Z.le_lt_trans; [|exact Hg]. apply gm_bound; auto.
      - destruct (Z.even (val 64 u)); [exact Su | destruct Su as [-> _]; reflexivity].
      - destruct (Z.even (val 64 v)); [exact Sv | destruct Sv as [-> _]; reflexivity]. }
    assert (Hne : val 64 u1 <> val 64 v1).
    { intros Eq. rewrite Eq in Hrp2.
      assert (E11 : val 64 v1 = 1).
      { assert (D : (val 64 v1 | 1)) by (apply Hrp2; exists 1; ring).
        apply Z.divide_1_r_nonneg; [lia|exact D]. }
      assert (Hev : Z.even (val 64 u) = true).
      { destruct (Z.even (val 64 u)); [reflexivity|]. destruct Su as [-> _]. lia. }
      assert (Hevv : Z.even (val 64 v) = true).
      { destruct (Z.even (val 64 v)); [reflexivity|]. destruct Sv as [-> _]. lia. }
      apply Z.even_spec in Hev. apply Z.even_spec in Hevv. destruct Hev as [x Ex]. destruct Hevv as [y Ey].
      assert (D : (2 | 1)) by (apply Hrp; [exists x; lia | exists y; lia]).
      destruct D as [q Eq2]. lia. }
    rewrite (bi_ltb_val (S n)) by auto.
    destruct (Z.ltb_spec (val 64 v1) (val 64 u1)) as [Hlt|Hge].
    - destruct (mod_diff b1 c1 Hb1 Hc1 ltac:(lia) ltac:(lia)) as (Hd & Bd & Cd). cbv zeta in Hd, Bd, Cd.
      destruct (bi_sub_spec_le u1 v1 Hu1 Hv1 ltac:(lia)) as [Hs Es].
      cbv zeta. apply IH; auto; try lia.
      + rewrite Es. apply cong_trans with (a * (val 64 b1 - val 64 c1)).
        * destruct Cd as [q Eq]. exists (a * q). rewrite <- Z.mul_sub_distr_l, Eq. ring.
        * destruct Cb1 as [q1 Q1]. destruct Cc1 as [q2 Q2]. exists (q1 - q2). lia.
      + rewrite Es. apply rel_prime_sym. replace (val 64 u1 - val 64 v1) with (val 64 u1 + (-1) * val 64 v1) by ring.
        constructor; try apply Z.divide_1_l. intros x D1 D2. apply Hrp2; auto.
        replace (val 64 u1) with ((val 64 u1 + -1 * val 64 v1) + val 64 v1) by ring. apply Z.divide_add_r; auto.
      + rewrite Es. apply gm_half; auto; lia.
    - destruct (mod_diff c1 b1 Hc1 Hb1 ltac:(lia) ltac:(lia)) as (Hd & Bd & Cd). cbv zeta in Hd, Bd, Cd.
      destruct (bi_sub_spec_le v1 u1 Hv1 Hu1 ltac:(lia)) as [Hs Es].
      cbv zeta. apply IH; auto; try lia.
      + rewrite Es. apply cong_trans with (a * (val 64 c1 - val 64 b1)).
        * destruct Cd as [q Eq]. exists (a * q). rewrite <- Z.mul_sub_distr_l, Eq. ring.
        * destruct Cb1 as [q1 Q1]. destruct Cc1 as [q2 Q2]. exists (q2 - q1). lia.
      + rewrite Es. constructor; try apply Z.divide_1_l. intros x D1 D2. apply Hrp2; auto.
        replace (val 64 v1) with ((val 64 v1 - val 64 u1) + val 64 u1) by ring. apply Z.divide_add_r; auto.
      + rewrite Es. apply gm_half; auto; try lia.
  Qed.
End Inv.

Lemma montgomery_inverse_correct n m spare a r2 fuel :
  limbs 64 (S n) m -> Z.odd (val 64 m) = true -> 1 < val 64 m ->
  (spare = true -> 2 * val 64 m <= 2 ^ (64 * Z.of_nat (S n))) ->
  limbs 64 (S n) a -> val 64 a < val 64 m -> limbs 64 (S n) r2 -> val 64 r2 < val 64 m ->
  (128 * S n <= fuel)%nat ->
  (val 64 a = 0 -> bi_montgomery_inverse spare fuel a m r2 = Some None) /\
  (rel_prime (val 64 a) (val 64 m) -> 
   exists out, bi_montgomery_inverse spare fuel a m r2 = Some (Some out) /\
     limbs 64 (S n) out /\ 0 <= val 64 out < val 64 m /\
     (val 64 a * val 64 out) mod val 64 m = val 64 r2 mod val 64 m).
Proof.
  intros Hm Ho H1 Hs Ha La Hr Lr Hf. pose proof (val_bound 64 _ _ ltac:(lia) Ha) as Ba.
  pose proof (val_bound 64 _ _ ltac:(lia) Hm) as Bm.
  unfold bi_montgomery_inverse. rewrite (bi_is_zero_val 64 (S n)) by (auto; lia).
  split; intros H.
  - rewrite H. reflexivity.
  - destruct (Z.eqb_spec (val 64 a) 0) as [E|E].
    { exfalso. rewrite E in H. assert (D : (val 64 m | 1)) by (apply H; [exists 0; ring | exists 1; ring]).
      apply Z.divide_1_r_nonneg in D; lia. }
    rewrite (limbs_length _ _ _ Hm).
    destruct (minv_loop_spec n m spare Hm Ho Hs (val 64 a) (val 64 r2) (64 * S n + 1) ltac:(lia) (128 * S n) fuel
                a m r2 (map (fun _ => 0) m)) as (out & E1 & H2 & H3 & C); auto; try lia.
    + apply limbs_map0; [lia|]. apply (limbs_length _ _ _ Hm).
    + rewrite val_map0. lia.
    + rewrite Z.mul_comm. apply cong_refl.
    + rewrite val_map0. exists (- val 64 r2). ring.
    + assert (EP : 2 ^ Z.of_nat (128 * S n) = 2 ^ (64 * Z.of_nat (S n)) * 2 ^ (64 * Z.of_nat (S n))).
      { rewrite <- Z.pow_add_r by lia. f_equal. lia. }
      unfold gm. destruct (Z.even (val 64 a * val 64 m)).
      * apply Z.div_lt_upper_bound; [lia|]. rewrite EP. nia.
      * rewrite EP. nia.
    + exists out. rewrite E1. cbn [option_map]. repeat (split; [solve [auto]|]).
      destruct C as [q Eq]. replace (val 64 a * val 64 out) with (val 64 r2 + q * val 64 m) by lia.
      apply Z.mod_add. lia.
Qed.
