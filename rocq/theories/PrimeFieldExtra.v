(** Corollaries used to close the prime-field property theorems. *)
From Coq Require Import ZArith List Bool Lia Znumtheory.
From Coq Require Import ZifyBool ZifyNat.
From Verif Require Import BigIntModel BigIntSpec BigIntProof BigIntProof2 PrimeFieldModel PrimeFieldSpec PrimeFieldProof MontInvProof.
Import ListNotations.
Open Scope Z_scope.

Section X.
  Variables (n : nat) (m : list Z).
  Hypothesis Hm : limbs 64 (S n) m.
  Hypothesis H1 : 1 < val 64 m.
  Hypothesis Ho : Z.odd (val 64 m) = true.
  Let c := mk_config m.
  Let p := val 64 m.
  Local Notation rep := (represents (S n) p).
  Let G : good_config n c := mk_config_good n m Hm H1 Ho.

  Lemma field_ops a b x y : rep a x -> rep b y ->
    rep (pf_add c a b) (x + y) /\ rep (pf_double c a) (2 * x) /\ rep (pf_sub c a b) (x - y) /\
    rep (pf_neg c a) (- x) /\ rep (pf_mul c a b) (x * y) /\ rep (pf_square c a) (x * x).
  Proof.
    intros Ha Hb.
    split; [apply (pf_add_rep n c G); auto|]. split; [apply (pf_double_rep n c G); auto|].
    split; [apply (pf_sub_rep n c G); auto|]. split; [apply (pf_neg_rep n c G); auto|].
    split; [apply (pf_mul_rep n c G); auto|]. apply (pf_square_rep n c G); auto.
  Qed.
  Lemma field_both_muls a b x y : rep a x -> rep b y ->
    rep (do_slow_mul c a b) (x * y) /\ (can_use_no_carry m = true -> rep (do_fast_mul c a b) (x * y)).
  Proof.
    intros Ha Hb. split.
    - apply (pf_slow_mul_rep n c G); auto.
    - intros E. apply (pf_fast_mul_rep n c G); auto.
  Qed.
  Lemma field_conv v : limbs 64 (S n) v -> val 64 v < p ->
    rep (pf_of_bigint c v) (val 64 v) /\ pf_to_bigint c (pf_of_bigint c v) = v.
  Proof.
    intros Hv Hlt. pose proof (pf_of_bigint_rep n c G v Hv Hlt) as Hr. split; [exact Hr|].
    destruct (pf_to_bigint_rep n c G _ _ Hr) as [Hl E]. apply (val_inj 64 (S n)); auto; try lia.
    pose proof (val_bound 64 _ _ ltac:(lia) Hv). rewrite E. apply Z.mod_small. unfold p in Hlt. cbn. lia.
  Qed.
  Lemma field_to_bigint a x : rep a x -> limbs 64 (S n) (pf_to_bigint c a) /\ val 64 (pf_to_bigint c a) = x mod p.
  Proof. apply (pf_to_bigint_rep n c G). Qed.
  Lemma field_cmp a b x y : rep a x -> rep b y ->
    pf_eqb a b = (x mod p =? y mod p) /\ pf_ltb c a b = (x mod p <? y mod p) /\
    pf_is_zero a = (x mod p =? 0) /\ pf_is_one c a = (x mod p =? 1).
  Proof.
    intros Ha Hb. split; [apply (pf_eqb_rep n c G); auto|]. split; [apply (pf_ltb_rep n c G); auto|].
    assert (R1 : rep (cfg_one c) 1) by apply (pf_one_rep n c G).
    assert (Hz : represents (S n) p (repeat 0 (S n)) 0).
    { split; [apply limbs_repeat0; lia|]. rewrite val_repeat0. split; [unfold p; lia|].
      rewrite Z.mul_0_l. symmetry. apply Z.mod_0_l. unfold p. lia. }
    split.
    - unfold pf_is_zero. rewrite (bi_is_zero_val 64 (S n)) by (lia || apply Ha).
      pose proof (pf_eqb_rep n c G a _ x 0 Ha Hz) as E. unfold pf_eqb in E.
      rewrite (bi_eqb_spec (S n)) in E by (apply Ha || apply Hz). rewrite val_repeat0 in E. rewrite E.
      cbn [c cfg_modulus mk_config]. fold p. rewrite (Z.mod_0_l p) by (unfold p; lia). reflexivity.
    - pose proof (pf_eqb_rep n c G a _ x 1 Ha R1) as E. unfold pf_eqb in E.
      unfold pf_is_one. rewrite E. cbn [c cfg_modulus mk_config]. fold p.
      rewrite (Z.mod_small 1 p) by (unfold p; lia). reflexivity.
  Qed.
  Lemma field_rep_total x : exists a, rep a x.
  Proof. apply (rep_exists n c G). Qed.
  Lemma field_rep_unique a b x y : rep a x -> rep b y -> (a = b <-> x mod p = y mod p).
  Proof.
    intros Ha Hb. pose proof (pf_eqb_rep n c G a b x y Ha Hb) as E. unfold pf_eqb in E.
    rewrite (bi_eqb_spec (S n)) in E by (apply Ha || apply Hb). cbn [c cfg_modulus mk_config] in E. fold p in E. split.
    - intros ->. rewrite Z.eqb_refl in E. symmetry in E. apply Z.eqb_eq. exact E.
    - intros Eq. apply (val_inj 64 (S n)); [lia| apply Ha | apply Hb |].
      apply Z.eqb_eq. rewrite E. apply Z.eqb_eq. exact Eq.
  Qed.

  Lemma field_mont_inverse a x : rep a x -> 
    (x mod p = 0 -> bi_montgomery_inverse (has_spare_bit m) (128 * S n) a m (cfg_r2 c) = Some None) /\
    (rel_prime x p -> exists out y,
       bi_montgomery_inverse (has_spare_bit m) (128 * S n) a m (cfg_r2 c) = Some (Some out) /\
       rep out y /\ (x * y) mod p = 1).
  Proof.
    intros Ha. pose proof Ha as (La & Lt & Ea).
    set (R := 2 ^ (64 * Z.of_nat (S n))) in *.
    assert (Hp : 1 < p) by exact H1.
    assert (Lr2 : limbs 64 (S n) (cfg_r2 c)) by apply G.
    assert (Er2 : val 64 (cfg_r2 c) = (R * R) mod p) by apply G.
    pose proof (Z.mod_pos_bound (R * R) p ltac:(lia)) as Br2.
    assert (Cop : rel_prime R p) by apply (G_coprime n c G).
    destruct (montgomery_inverse_correct n m (has_spare_bit m) a (cfg_r2 c) (128 * S n) Hm Ho H1
                (half_of_top n m Hm) La Lt Lr2 ltac:(fold p; lia) ltac:(lia)) as [Hz Hnz].
    split.
    - intros E. apply Hz. rewrite Ea. rewrite <- Z.mul_mod_idemp_l, E, Z.mul_0_l by lia. apply Z.mod_0_l. lia.
    - intros Hx. destruct Hnz as (out & E & Lo & Bo & Eo).
      { rewrite Ea. fold p.
        assert (H : rel_prime (x * R) p) by (apply rel_prime_sym, rel_prime_mult; apply rel_prime_sym; auto).
        apply rel_prime_mod; [lia|exact H]. }
      pose proof (field_rep_total) as _.
      assert (exists y, rep out y) as [y Hy].
      { destruct (rel_prime_bezout _ _ Cop) as [u v Euv]. exists (val 64 out * u).
        split; [exact Lo|]. split; [fold p in Bo; lia|]. fold R.
        replace (val 64 out * u * R) with (val 64 out + (- v * val 64 out) * p).
        - rewrite Z.mod_add by lia. symmetry. apply Z.mod_small. exact Bo.
        - replace (val 64 out * u * R) with (val 64 out * (u * R)) by ring.
          replace (u * R) with (1 - v * p) by lia. ring. }
      exists out, y. split; [exact E|]. split; [exact Hy|].
      fold p in Eo. rewrite Er2, Z.mod_mod in Eo by lia.
      rewrite Ea, (proj2 (proj2 Hy)) in Eo. fold R in Eo. rewrite <- Z.mul_mod in Eo by lia.
      replace (x * R * (y * R)) with (x * y * R * R) in Eo by ring.
      apply (cancel_R n c G) in Eo. fold R in Eo.
      replace R with (1 * R) in Eo at 2 by ring. apply (cancel_R n c G) in Eo.
      cbn [c cfg_modulus mk_config] in Eo. fold p in Eo. rewrite Eo. apply Z.mod_small. lia.
  Qed.
End X.
