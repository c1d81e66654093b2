(** Proofs about the 32-bit prime fields and the extended Euclidean algorithm. *)
From Coq Require Import ZArith List Bool Lia Znumtheory.
From Coq Require Import ZifyBool ZifyNat.
From Verif Require Import BigIntModel BigIntSpec BigIntProof PrimeFieldModel PrimeFieldProof.
From Verif Require Import SemigroupModel SemigroupProof ParallelizeProof Zp SmallFieldModel.
Import ListNotations.
Open Scope Z_scope.

(** A relational version of the exponentiation loop. *)
Lemma do_pow_rel {G} (R : G -> Z -> Prop) (one : G) mul sq g e :
  R one 0 -> (forall a n, 0 <= n -> R a n -> R (sq a) (2 * n)) -> (forall a n, 0 <= n -> R a n -> R (mul a g) (n + 1)) ->
  R (do_pow one mul sq e g) (be_val (bits_be_skipped e)).
Proof.
  intros H0 Hs Hm. unfold do_pow, be_val.
  assert (GG : forall bits a v, 0 <= v -> R a v ->
    R (fold_left (fun ret (b : bool) => let ret := sq ret in if b then mul ret g else ret) bits a)
      (fold_left (fun v (b : bool) => 2 * v + (if b then 1 else 0)) bits v)).
  { induction bits as [|b bits IH]; intros a v Hv Ha; [exact Ha|]. cbn [fold_left]. destruct b.
    - apply IH; [lia|]. apply Hm; [lia|]. apply Hs; auto.
    - apply IH; [lia|]. replace (2 * v + 0) with (2 * v) by lia. apply Hs; auto. }
  apply GG; [lia|exact H0].
Qed.
Lemma be_val_word x : 0 <= x < 2 ^ 64 -> be_val (bits_be_skipped [x]) = x.
Proof.
  intros Hx. rewrite (bits_be_val tt (fun _ _ => tt) (fun _ => tt) ltac:(reflexivity) 1).
  - cbn [val]. lia.
  - split; [reflexivity|]. constructor; [exact Hx|constructor].
Qed.

Section EGCD.
  Variables x y : Z.
  Hypotheses (Hx : 0 <= x < 2 ^ 63) (Hy : 0 <= y < 2 ^ 63).

  Record einv (r_prev r s_prev s t_prev t : Z) : Prop := {
    ei_r : 0 <= r; ei_rp : 0 <= r_prev; ei_rb : r_prev < 2 ^ 63 /\ r < 2 ^ 63;
    ei_b1 : s_prev * x + t_prev * y = r_prev;
    ei_b2 : s * x + t * y = r;
    ei_s : Z.abs s * r_prev + Z.abs s_prev * r = y;
    ei_t : Z.abs t * r_prev + Z.abs t_prev * r = x;
    ei_ss : s * s_prev <= 0; ei_tt : t * t_prev <= 0;
    ei_g : Z.gcd r_prev r = Z.gcd x y;
    ei_mono : (Z.abs s_prev <= Z.abs s /\ r < r_prev) \/ (s = 0 /\ r = y)
  }.
  Lemma i64_ok v : - 2 ^ 63 <= v < 2 ^ 63 -> i64 v = Some v.
  Proof. intros H. unfold i64, int64_ok. replace ((- 2 ^ 63 <=? v) && (v <? 2 ^ 63)) with true by lia. reflexivity. Qed.

  Lemma opp_sign a b q : a * b <= 0 -> 0 <= q -> Z.abs (a - q * b) = Z.abs a + q * Z.abs b.
  Proof.
    intros H Hq. assert (C : (a <= 0 /\ 0 <= b) \/ (0 <= a /\ b <= 0)) by nia.
    destruct C as [[Ha Hb]|[Ha Hb]].
    - rewrite (Z.abs_neq a), (Z.abs_eq b), Z.abs_neq by nia. lia.
    - rewrite (Z.abs_eq a), (Z.abs_neq b), Z.abs_eq by nia. lia.
  Qed.
  Lemma bound_step q a b r m y' : 0 <= q -> 0 <= a -> 0 <= b -> 0 < r -> 0 <= m ->
    b * (r * q + m) + a * r = y' -> (a + q * b) * r + b * m = y' /\ a + q * b <= y'.
  Proof.
    intros Hq Ha Hb Hr Hm E. assert (E' : (a + q * b) * r + b * m = y') by (rewrite <- E; ring).
    split; [exact E'|]. assert (0 <= a + q * b) by nia. assert (0 <= b * m) by nia. nia.
  Qed.

  Lemma i64_sub_mul_ok a q b Y : 0 <= q -> a * b <= 0 -> Z.abs a + q * Z.abs b <= Y -> Y < 2 ^ 63 ->
    i64_sub_mul a q b = Some (a - q * b) /\ Z.abs (a - q * b) = Z.abs a + q * Z.abs b.
  Proof.
    clear. intros Hq Hs HY HB. pose proof (opp_sign a b q Hs Hq) as E. split; [|exact E].
    assert (QS : Z.abs (q * b) <= Y). { rewrite Z.abs_mul, (Z.abs_eq q) by exact Hq. pose proof (Z.abs_nonneg a). lia. }
    unfold i64_sub_mul. apply Z.abs_le in QS. rewrite i64_ok by lia.
    rewrite <- E in HY. apply Z.abs_le in HY. rewrite i64_ok by lia. reflexivity.
  Qed.
  Lemma i64_rem rp r q m : rp = r * q + m -> 0 <= q -> 0 <= m -> 0 < r -> rp < 2 ^ 63 -> i64_sub_mul rp q r = Some m.
  Proof.
    clear. intros D Hq Hm Hr HB. assert (0 <= q * r) by nia. unfold i64_sub_mul. rewrite i64_ok by lia.
    rewrite i64_ok by lia. f_equal. lia.
  Qed.
  Lemma sign_step a b q : a * b <= 0 -> 0 <= q -> (b - q * a) * a <= 0.
  Proof. clear. intros. assert (0 <= q * (a * a)) by nia. lia. Qed.

  Lemma egcd_step rp r sp s tp t : einv rp r sp s tp t -> 0 < r ->
    let q := rp / r in
    i64 (Z.quot rp r) = Some q /\
    i64_sub_mul rp q r = Some (rp mod r) /\
    i64_sub_mul sp q s = Some (sp - q * s) /\
    i64_sub_mul tp q t = Some (tp - q * t) /\
    einv r (rp mod r) s (sp - q * s) t (tp - q * t).
  Proof.
    intros [Hr Hrp Hrb B1 B2 ES ET SS TT HG HM] H0. cbv zeta.
    rewrite Z.quot_div_nonneg by assumption.
    assert (D := Z.div_mod rp r ltac:(clear -H0; lia)). assert (M := Z.mod_pos_bound rp r H0).
    assert (Hq : 0 <= rp / r) by (apply Z.div_pos; assumption).
    assert (HQ : rp / r <= rp) by (apply Z.div_le_upper_bound; [assumption|]; clear -H0 Hrp; nia).
    set (q := rp / r) in *. set (m := rp mod r) in *. clearbody q m.
    pose proof ES as ES'. rewrite D in ES'. pose proof ET as ET'. rewrite D in ET'.
    destruct (bound_step q (Z.abs sp) (Z.abs s) r m y Hq (Z.abs_nonneg _) (Z.abs_nonneg _) H0 (proj1 M) ES') as [BS LS].
    destruct (bound_step q (Z.abs tp) (Z.abs t) r m x Hq (Z.abs_nonneg _) (Z.abs_nonneg _) H0 (proj1 M) ET') as [BT LT].
    clear ES' ET'. rewrite Z.mul_comm in SS. rewrite Z.mul_comm in TT.
    destruct (i64_sub_mul_ok sp q s y Hq SS LS (proj2 Hy)) as [IS AS].
    destruct (i64_sub_mul_ok tp q t x Hq TT LT (proj2 Hx)) as [IT AT].
    split; [apply i64_ok; clear -Hq HQ Hrb; lia|].
    split; [apply (i64_rem rp r q m D Hq (proj1 M) H0 (proj1 Hrb))|].
    split; [exact IS|]. split; [exact IT|].
    constructor.
    - apply M.
    - exact Hr.
    - clear -Hrb M. lia.
    - exact B2.
    - transitivity ((sp * x + tp * y) - q * (s * x + t * y)); [ring|]. rewrite B1, B2. clear -D. lia.
    - rewrite AS. exact BS.
    - rewrite AT. exact BT.
    - apply sign_step; [rewrite Z.mul_comm; exact SS|exact Hq].
    - apply sign_step; [rewrite Z.mul_comm; exact TT|exact Hq].
    - rewrite <- HG. rewrite D. rewrite (Z.gcd_comm (r * q + m)). rewrite Z.add_comm, Z.mul_comm, Z.gcd_add_mult_diag_r. reflexivity.
    - left. rewrite AS. split; [|apply M]. destruct HM as [[HM HL]|[Hs0 _]].
      + assert (q <> 0) by (intros ->; clear -HL D M; lia). clear -HM H Hq. nia.
      + rewrite Hs0. cbn [Z.abs]. pose proof (Z.abs_nonneg sp). lia.
  Qed.

  Lemma egcd_loop_spec : forall k rp r sp s tp t, einv rp r sp s tp t -> r < 2 ^ Z.of_nat k ->
    exists s' t' sl tl, egcd_loop (2 * k + 1) rp r sp s tp t = Some (s', t', Z.gcd x y) /\
      einv (Z.gcd x y) 0 s' sl t' tl.
  Proof.
    induction k as [|k IH]; intros rp r sp s tp t HI Hk.
    - cbn in Hk. assert (r = 0) by (destruct HI; lia). subst r.
      assert (rp = Z.gcd x y). { destruct HI. rewrite <- ei_g0, Z.gcd_0_r. lia. } subst rp.
      exists sp, tp, s, t. split; [reflexivity|exact HI].
    - replace (2 * S k + 1)%nat with (S (S (2 * k + 1))) by lia. remember (2 * k + 1)%nat as f.
      cbn [egcd_loop]. destruct (r =? 0) eqn:E0.
      { assert (r = 0) by lia. subst r.
        assert (rp = Z.gcd x y). { destruct HI. rewrite <- ei_g0, Z.gcd_0_r. lia. } subst rp.
        exists sp, tp, s, t. split; [reflexivity|exact HI]. }
      assert (H0 : 0 < r) by (destruct HI; lia).
      destruct (egcd_step _ _ _ _ _ _ HI H0) as (S1 & S2 & S3 & S4 & HI').
      rewrite S1, S2, S3, S4. pose proof (Z.mod_pos_bound rp r ltac:(lia)) as M.
      clear S1 S2 S3 S4. set (m := rp mod r) in *. clearbody m. set (q := rp / r) in *. clearbody q.
      destruct (m =? 0) eqn:E1.
      { assert (m = 0) by lia. subst m.
        assert (r = Z.gcd x y). { destruct HI'. rewrite <- ei_g0, Z.gcd_0_r. lia. } subst r.
        eexists _, _, _, _. split; [reflexivity|exact HI']. }
      destruct (egcd_step _ _ _ _ _ _ HI' ltac:(lia)) as (S1 & S2 & S3 & S4 & HI2).
      rewrite S1, S2, S3, S4. apply IH; [exact HI2|].
      rewrite Nat2Z.inj_succ, Z.pow_succ_r in Hk by lia.
      pose proof (Z.div_mod r m ltac:(lia)). pose proof (Z.mod_pos_bound r m ltac:(lia)).
      assert (1 <= r / m) by (apply Z.div_le_lower_bound; lia). clear -Hk H H1 M H2. nia.
  Qed.

  Lemma einv_init : einv x y 1 0 0 1.
  Proof. constructor; try lia. Qed.

  Lemma egcd_spec : exists s t, egcd x y = Some (s, t, Z.gcd x y) /\ s * x + t * y = Z.gcd x y /\
    (0 < y -> Z.abs s * Z.gcd x y <= y).
  Proof.
    destruct (egcd_loop_spec 63 x y 1 0 0 1 einv_init ltac:(change (Z.of_nat 63) with 63; lia)) as (s & t & sl & tl & E & HI).
    exists s, t. split; [exact E|]. destruct HI as [? Hg ? B1 ? ES ? ? ? ? HM]. split; [exact B1|].
    intros H0. destruct HM as [[HM _]|[_ HM]]; [|lia]. rewrite Z.mul_0_r, Z.add_0_r in ES.
    transitivity (Z.abs sl * Z.gcd x y); [apply Z.mul_le_mono_nonneg_r; auto|lia].
  Qed.
End EGCD.

Section AddSub.
  Variable p : Z.
  Hypothesis Hp : 1 < p < 2 ^ 31.
  Lemma reduce32_spec v : 0 <= v < 2 * p -> reduce_default p v = v mod p.
  Proof.
    intros Hv. unfold reduce_default. destruct (p <=? v) eqn:C.
    - apply Z.mod_unique_pos with (q := 1); lia.
    - symmetry. apply Z.mod_small. lia.
  Qed.
  Lemma add_mod_spec a b : 0 <= a < p -> 0 <= b < p -> add_mod (reduce_default p) a b = (a + b) mod p.
  Proof. intros. unfold add_mod. rewrite trunc_small by lia. apply reduce32_spec. lia. Qed.
  Lemma sub_mod_spec a b : 0 <= a < p -> 0 <= b < p -> sub_mod p (reduce_default p) a b = (a - b) mod p.
  Proof.
    intros. unfold sub_mod. rewrite (trunc_small 32 (a + p)) by lia. rewrite trunc_small by lia.
    rewrite reduce32_spec by lia. replace (a + p - b) with (a - b + 1 * p) by ring. apply Z.mod_add. lia.
  Qed.

End AddSub.

Section Mont.
  Variable p : Z.
  Hypotheses (Hodd : Z.odd p = true) (Hp : 2 < p < 2 ^ 31).

  Lemma neg_inverse v : (v * p) mod 2 ^ 32 = 2 ^ 32 - 1 -> (p * ((- v) mod 2 ^ 32)) mod 2 ^ 32 = 1.
  Proof.
    intros E. rewrite Z.mul_mod_idemp_r by lia. replace (p * - v) with (- (v * p)) by ring.
    pose proof (Z.div_mod (v * p) (2 ^ 32) ltac:(lia)) as D. rewrite E in D.
    symmetry. apply Z.mod_unique_pos with (q := - (v * p / 2 ^ 32) - 1); lia.
  Qed.
  Lemma inverse32_spec : (p * inverse32 p) mod 2 ^ 32 = 1 /\ 0 <= inverse32 p < 2 ^ 32.
  Proof.
    split; [|apply trunc_range; lia].
    apply neg_inverse. exact (proj1 (modulus_inverse_correct 32 [p] eq_refl Hodd)).
  Qed.

  Lemma from_mont_with iv v : (p * iv) mod 2 ^ 32 = 1 -> 0 <= v < p * 2 ^ 32 ->
    let t := Z.land (trunc 64 (v * iv)) (2 ^ 32 - 1) in
    let u := trunc 64 (t * p) in
    let ret := trunc 32 (Z.shiftr (trunc 64 (v - u)) 32) in
    let r := if v <? u then trunc 32 (ret + p) else ret in
    0 <= r < p /\ (r * 2 ^ 32) mod p = v mod p.
  Proof.
    intros Hi Hv.
    assert (Et : Z.land (trunc 64 (v * iv)) (2 ^ 32 - 1) = (v * iv) mod 2 ^ 32).
    { replace (2 ^ 32 - 1) with (Z.ones 32) by reflexivity. rewrite Z.land_ones by lia. unfold trunc.
      change (2 ^ 64) with (2 ^ 32 * 2 ^ 32). rewrite Z.rem_mul_r by lia.
      rewrite (Z.mul_comm (2 ^ 32) ((v * iv / 2 ^ 32) mod 2 ^ 32)), Z.mod_add by lia. apply Z.mod_mod. lia. }
    rewrite Et. clear Et. cbv zeta. set (t := (v * iv) mod 2 ^ 32).
    assert (Ht : 0 <= t < 2 ^ 32) by (apply Z.mod_pos_bound; lia).
    rewrite (trunc_small 64 (t * p)) by nia.
    assert (Eu : (t * p) mod 2 ^ 32 = v mod 2 ^ 32).
    { unfold t. rewrite Z.mul_mod_idemp_l by lia. replace (v * iv * p) with (v * (p * iv)) by ring.
      rewrite <- Z.mul_mod_idemp_r, Hi, Z.mul_1_r by lia. reflexivity. }
    clearbody t. pose proof (Z.div_mod (t * p) (2 ^ 32) ltac:(lia)) as D1. pose proof (Z.div_mod v (2 ^ 32) ltac:(lia)) as D2.
    rewrite Eu in D1. set (ud := t * p / 2 ^ 32) in *. set (vd := v / 2 ^ 32) in *. set (lo := v mod 2 ^ 32) in *.
    assert (Hlo : 0 <= lo < 2 ^ 32) by (apply Z.mod_pos_bound; lia).
    assert (Hu : 0 <= t * p < 2 ^ 32 * p) by nia.
    assert (Hud : 0 <= ud < p) by (clearbody lo ud; lia). assert (Hvd : 0 <= vd < p) by (clearbody lo vd; lia).
    assert (Ed : v - t * p = (vd - ud) * 2 ^ 32) by lia.
    destruct (v <? t * p) eqn:C.
    - assert (Hneg : vd < ud) by lia.
      replace (trunc 64 (v - t * p)) with ((2 ^ 32 + (vd - ud)) * 2 ^ 32).
      2: { unfold trunc. rewrite Ed. apply Z.mod_unique_pos with (q := -1); lia. }
      rewrite Z.shiftr_div_pow2, Z.div_mul by lia.
      assert (Er : trunc 32 (trunc 32 (2 ^ 32 + (vd - ud)) + p) = vd - ud + p).
      { rewrite (trunc_small 32 (2 ^ 32 + (vd - ud))) by lia. unfold trunc. symmetry.
        apply Z.mod_unique_pos with (q := 1); lia. }
      rewrite Er.
      split; [lia|]. replace ((vd - ud + p) * 2 ^ 32) with (v + (2 ^ 32 - t) * p) by lia.
      apply Z.mod_add. lia.
    - rewrite (trunc_small 64 (v - t * p)) by nia. rewrite Ed. rewrite Z.shiftr_div_pow2, Z.div_mul by lia.
      rewrite trunc_small by lia. split; [lia|]. replace ((vd - ud) * 2 ^ 32) with (v + (- t) * p) by lia.
      apply Z.mod_add. lia.
  Qed.
  Lemma from_mont_spec v : 0 <= v < p * 2 ^ 32 ->
    0 <= from_mont p v < p /\ (from_mont p v * 2 ^ 32) mod p = v mod p.
  Proof. intros Hv. unfold from_mont. exact (from_mont_with _ v (proj1 inverse32_spec) Hv). Qed.

  Notation "a == b" := (eqm p a b) (at level 70).
  Lemma eqm_cancel x y : x * 2 ^ 32 == y * 2 ^ 32 -> x == y.
  Proof.
    unfold eqm. intros H.
    assert (Hc : rel_prime (2 ^ 32) p).
    { apply rel_prime_sym. apply Zpow_facts.rel_prime_Zpower_r; [lia|]. apply rel_prime_sym.
      apply prime_rel_prime; [apply prime_2|]. intros [k Ek]. rewrite Ek, Z.odd_mul in Hodd.
      rewrite andb_false_r in Hodd. discriminate. }
    assert (D : (p | 2 ^ 32 * (x - y))).
    { exists ((x * 2 ^ 32) / p - (y * 2 ^ 32) / p).
      pose proof (Z.div_mod (x * 2 ^ 32) p ltac:(lia)). pose proof (Z.div_mod (y * 2 ^ 32) p ltac:(lia)). lia. }
    apply Gauss in D; [|apply rel_prime_sym; exact Hc].
    destruct D as [k Ek]. replace x with (y + k * p) by lia. apply Z.mod_add. lia.
  Qed.
  Lemma eqm_mod x : x mod p == x. Proof. apply Z.mod_mod. lia. Qed.
  Lemma eqm_small x y : x == y -> 0 <= x < p -> y mod p = x.
  Proof. unfold eqm. intros H Hx. rewrite <- H. apply Z.mod_small. exact Hx. Qed.

  Lemma ct x y z : x == y -> y == z -> x == z. Proof. unfold eqm. congruence. Qed.
  Lemma cs x y : x == y -> y == x. Proof. unfold eqm. congruence. Qed.
  Lemma cadd x y x' y' : x == x' -> y == y' -> x + y == x' + y'. Proof. intros A B. exact (Zplus_eqm p _ _ A _ _ B). Qed.
  Lemma csub x y x' y' : x == x' -> y == y' -> x - y == x' - y'. Proof. intros A B. exact (Zminus_eqm p _ _ A _ _ B). Qed.
  Lemma cmul x y x' y' : x == x' -> y == y' -> x * y == x' * y'. Proof. intros A B. exact (Zmult_eqm p _ _ A _ _ B). Qed.
  Lemma copp x x' : x == x' -> - x == - x'. Proof. intros A. exact (Zopp_eqm p _ _ A). Qed.

  Lemma dec_range a : 0 <= a < p -> 0 <= sfm_value p a < p /\ sfm_value p a * 2 ^ 32 == a.
  Proof. intros Ha. apply from_mont_spec. lia. Qed.
  (** The decoded value is the only residue congruent to a * 2^-32. *)
  Lemma dec_eq a x : 0 <= a < p -> x * 2 ^ 32 == a -> sfm_value p a = x mod p.
  Proof.
    intros Ha Hx. destruct (dec_range a Ha) as [R E]. symmetry. apply eqm_small; [|exact R].
    apply eqm_cancel. apply (ct _ a); [exact E|apply cs; exact Hx].
  Qed.

  Lemma to_mont_spec v : 0 <= v < 2 ^ 32 -> 0 <= to_mont32 p v < p /\ sfm_value p (to_mont32 p v) = v mod p.
  Proof.
    intros Hv. unfold to_mont32. rewrite Z.shiftl_mul_pow2 by lia. rewrite trunc_small by lia.
    assert (R : 0 <= (v * 2 ^ 32) mod p < p) by (apply Z.mod_pos_bound; lia). split; [exact R|].
    apply dec_eq; [exact R|]. apply cs, eqm_mod.
  Qed.
  Lemma to_mont64_spec v : 0 <= v < 2 ^ 64 -> 0 <= to_mont64 p v < p /\ sfm_value p (to_mont64 p v) = v mod p.
  Proof.
    intros Hv. unfold to_mont64. rewrite Z.shiftl_mul_pow2 by lia. rewrite trunc_small by lia.
    assert (R : 0 <= (v * 2 ^ 32) mod p < p) by (apply Z.mod_pos_bound; lia). split; [exact R|].
    apply dec_eq; [exact R|]. apply cs, eqm_mod.
  Qed.
  Lemma mont_roundtrip a : 0 <= a < p -> to_mont32 p (sfm_value p a) = a.
  Proof.
    intros Ha. destruct (dec_range a Ha) as [R E]. unfold to_mont32. rewrite Z.shiftl_mul_pow2 by lia.
    rewrite trunc_small by lia. unfold eqm in E. rewrite E. apply Z.mod_small. exact Ha.
  Qed.

  Lemma sfm_ring a b : 0 <= a < p -> 0 <= b < p ->
    (0 <= sfm_add p a b < p /\ sfm_value p (sfm_add p a b) = (sfm_value p a + sfm_value p b) mod p) /\
    (0 <= sfm_sub p a b < p /\ sfm_value p (sfm_sub p a b) = (sfm_value p a - sfm_value p b) mod p) /\
    (0 <= sfm_neg p a < p /\ sfm_value p (sfm_neg p a) = (- sfm_value p a) mod p) /\
    (0 <= sfm_mul p a b < p /\ sfm_value p (sfm_mul p a b) = (sfm_value p a * sfm_value p b) mod p).
  Proof.
    intros Ha Hb. destruct (dec_range a Ha) as [Ra Ea]. destruct (dec_range b Hb) as [Rb Eb].
    unfold sfm_add, sfm_sub, sfm_neg, sfm_mul.
    rewrite (add_mod_spec p), !(sub_mod_spec p) by lia. rewrite trunc_small by nia.
    assert (M : forall v, 0 <= v mod p < p) by (intros; apply Z.mod_pos_bound; lia).
    split; [|split; [|split]].
    - split; [apply M|]. apply dec_eq; [apply M|]. rewrite Z.mul_add_distr_r. apply (ct _ (a + b)); [apply cadd; assumption|apply cs, eqm_mod].
    - split; [apply M|]. apply dec_eq; [apply M|]. rewrite Z.mul_sub_distr_r. apply (ct _ (a - b)); [apply csub; assumption|apply cs, eqm_mod].
    - split; [apply M|]. apply dec_eq; [apply M|]. rewrite Z.mul_opp_l. apply (ct _ (- a)); [apply copp; assumption|apply cs, eqm_mod].
    - destruct (from_mont_spec (a * b) ltac:(nia)) as [R E]. split; [exact R|]. apply dec_eq; [exact R|].
      apply eqm_cancel. apply (ct _ (a * b)); [|apply cs; exact E].
      replace (sfm_value p a * sfm_value p b * 2 ^ 32 * 2 ^ 32)
        with ((sfm_value p a * 2 ^ 32) * (sfm_value p b * 2 ^ 32)) by ring.
      apply cmul; assumption.
  Qed.

  Lemma sfm_zero a : 0 <= a < p -> (a = 0 <-> sfm_value p a = 0).
  Proof.
    intros Ha. destruct (dec_range a Ha) as [R E]. split; intros H.
    - rewrite (dec_eq a 0) by (subst; auto; reflexivity). reflexivity.
    - rewrite H in E. unfold eqm in E. rewrite (Z.mod_small a) in E by lia. rewrite <- E. reflexivity.
  Qed.
  Lemma sfm_inj a b : 0 <= a < p -> 0 <= b < p -> sfm_value p a = sfm_value p b -> a = b.
  Proof. intros Ha Hb E. rewrite <- (mont_roundtrip a Ha), E. apply mont_roundtrip. exact Hb. Qed.

  Lemma sfm_pow a e : 0 <= a < p -> 0 <= e < 2 ^ 64 ->
    let r := do_pow (sfm_one p) (sfm_mul p) (fun x => sfm_mul p x x) [e] a in
    0 <= r < p /\ sfm_value p r = (sfm_value p a ^ e) mod p.
  Proof.
    intros Ha He. cbv zeta.
    pose proof (do_pow_rel (fun r n => 0 <= r < p /\ sfm_value p r = (sfm_value p a ^ n) mod p)
      (sfm_one p) (sfm_mul p) (fun x => sfm_mul p x x) a [e]) as H. cbv beta in H.
    rewrite be_val_word in H by exact He. apply H.
    - unfold sfm_one. destruct (to_mont_spec 1 ltac:(lia)) as [R E]. split; [exact R|exact E].
    - intros b n Hn [R E]. destruct (sfm_ring b b R R) as (_ & _ & _ & R' & E'). split; [exact R'|].
      rewrite E', E. replace (2 * n) with (n + n) by ring. rewrite Z.pow_add_r by lia. symmetry. apply Z.mul_mod. lia.
    - intros b n Hn [R E]. destruct (sfm_ring b a R Ha) as (_ & _ & _ & R' & E'). split; [exact R'|].
      rewrite E', E. rewrite Z.pow_add_r, Z.pow_1_r by lia. apply Z.mul_mod_idemp_l. lia.
  Qed.

  Lemma sfm_inverse_spec a : prime p -> 0 <= a < p ->
    match sfm_inverse p a with
    | None => sfm_value p a = 0
    | Some i => sfm_value p a <> 0 /\ 0 <= i < p /\ (sfm_value p a * sfm_value p i) mod p = 1
    end.
  Proof.
    intros Hpr Ha. unfold sfm_inverse. destruct (a =? 0) eqn:E0.
    - apply (proj1 (sfm_zero a Ha)). lia.
    - assert (Hn : sfm_value p a <> 0) by (intros C; apply (proj2 (sfm_zero a Ha)) in C; lia).
      rewrite (trunc_small 32) by lia. destruct (sfm_pow a (p - 2) Ha ltac:(lia)) as [R E].
      split; [exact Hn|]. split; [exact R|]. rewrite E. rewrite Z.mul_mod_idemp_r by lia.
      rewrite <- (fermat p Hpr (sfm_value p a)) by (destruct (dec_range a Ha); lia).
      f_equal. replace (p - 1) with (Z.succ (p - 2)) by lia. rewrite Z.pow_succ_r by lia. reflexivity.
  Qed.
End Mont.

Section Plain.
  Variable p : Z.
  Hypothesis Hp : 1 < p < 2 ^ 31.
  Variable reduce64 : Z -> Z.
  Hypothesis Hred : forall v, 0 <= v <= (p - 1) * (p - 1) -> reduce64 v = v mod p.

  Lemma sf_ring a b : 0 <= a < p -> 0 <= b < p ->
    sf_add p a b = (a + b) mod p /\ sf_sub p a b = (a - b) mod p /\ sf_neg p a = (- a) mod p /\
    sf_mul reduce64 a b = (a * b) mod p.
  Proof.
    intros Ha Hb. unfold sf_add, sf_sub, sf_neg, sf_mul.
    split; [apply add_mod_spec; lia|]. split; [apply sub_mod_spec; lia|].
    split; [apply (sub_mod_spec p Hp 0 a); lia|].
    assert (B : 0 <= a * b <= (p - 1) * (p - 1)) by nia.
    assert ((p - 1) * (p - 1) < 2 ^ 64) by nia.
    rewrite trunc_small by lia. apply Hred. exact B.
  Qed.

End Plain.

Section PlainInverse.
  Variable p : Z.
  Hypothesis Hp : 1 < p < 2 ^ 31.
  Lemma sf_inverse_spec a : 0 <= a < p ->
    match sf_inverse p a with
    | Undefined => False
    | NoInverse => a = 0 \/ Z.gcd a p <> 1
    | Inv i => 0 < i < p /\ (a * i) mod p = 1
    end.
  Proof.
    intros Ha. unfold sf_inverse. destruct (a =? 0) eqn:E0; [left; lia|].
    destruct (egcd_spec a p ltac:(lia) ltac:(lia)) as (s & t & E & B & HS). rewrite E.
    destruct (Z.gcd a p =? 1) eqn:E1; cbn [negb]; [|right; lia].
    assert (G1 : Z.gcd a p = 1) by lia. rewrite G1 in B, HS. specialize (HS ltac:(lia)).
    assert (Es : (a * s) mod p = 1).
    { replace (a * s) with (1 + (- t) * p) by lia. rewrite Z.mod_add by lia. apply Z.mod_small. lia. }
    assert (NZ : s <> 0). { intros ->. rewrite Z.mul_0_r, Z.mod_0_l in Es; lia. }
    assert (NP : Z.abs s <> p).
    { intros Hsp. assert (C : s = p \/ s = - p) by lia.
      destruct C as [->| ->]; [rewrite Z.mod_mul in Es by lia; lia|].
      replace (a * - p) with (- a * p) in Es by ring. rewrite Z.mod_mul in Es by lia. lia. }
    destruct (0 <? s) eqn:Cs.
    - rewrite trunc_small by lia. split; [lia|exact Es].
    - rewrite trunc_small by lia. split; [lia|]. replace (a * (p + s)) with (a * s + a * p) by ring.
      rewrite Z.mod_add by lia. exact Es.
  Qed.
  Lemma sf_inverse_prime a : prime p -> 0 <= a < p ->
    match sf_inverse p a with
    | Undefined => False
    | NoInverse => a = 0
    | Inv i => a <> 0 /\ 0 < i < p /\ (a * i) mod p = 1
    end.
  Proof.
    intros Hpr Ha. pose proof (sf_inverse_spec a Ha) as H. unfold sf_inverse in *.
    destruct (a =? 0) eqn:E0; [lia|].
    assert (HG : Z.gcd a p = 1). { apply Zgcd_1_rel_prime. apply (prime_coprime p Hpr). lia. }
    destruct (egcd a p) as [[[s t] r]|]; [|exact H]. destruct (negb (r =? 1)).
    - destruct H; lia.
    - destruct (0 <? s); (split; [lia|exact H]).
  Qed.
End PlainInverse.

Lemma mersenne31_reduce v : 0 <= v < mersenne31 * 2 ^ 31 -> mersenne31_reduce64 v = v mod mersenne31.
Proof.
  unfold mersenne31_reduce64, mersenne31. intros Hv. rewrite !Z.shiftr_div_pow2 by lia.
  pose proof (Z.div_mod v (2 ^ 31) ltac:(lia)) as D. pose proof (Z.mod_pos_bound v (2 ^ 31) ltac:(lia)) as M.
  assert (Hq : 0 <= v / 2 ^ 31 < 2147483647). { split; [apply Z.div_pos; lia|apply Z.div_lt_upper_bound; lia]. }
  set (a := v / 2 ^ 31) in *. set (b := v mod 2 ^ 31) in *. clearbody a b.
  rewrite (trunc_small 64 (a + v)), (trunc_small 64 (a + v + 1)) by lia.
  replace ((a + v + 1) / 2 ^ 31) with (a + (a + b + 1) / 2 ^ 31).
  2: { replace (a + v + 1) with (a + b + 1 + a * 2 ^ 31) by lia. rewrite Z.div_add by lia. lia. }
  change 2147483647 with (Z.ones 31) at 1. rewrite Z.land_ones by lia.
  destruct (Z_lt_le_dec (a + b + 1) (2 ^ 31)) as [L|G].
  - rewrite (Z.div_small (a + b + 1)) by lia. rewrite trunc_small by lia.
    transitivity (a + b); [symmetry; apply Z.mod_unique_pos with (q := a); lia|].
    apply Z.mod_unique_pos with (q := a); lia.
  - replace ((a + b + 1) / 2 ^ 31) with 1 by (apply Z.div_unique_pos with (r := a + b + 1 - 2 ^ 31); lia).
    rewrite trunc_small by lia.
    transitivity (a + b + 1 - 2 ^ 31); [symmetry; apply Z.mod_unique_pos with (q := a + 1); lia|].
    apply Z.mod_unique_pos with (q := a + 1); lia.
Qed.
