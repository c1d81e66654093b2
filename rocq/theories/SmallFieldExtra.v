(** Corollaries of SmallFieldProof in the vocabulary of SmallFieldSpec. *)
From Coq Require Import ZArith List Bool Lia Znumtheory Zpow_facts.
From Coq Require Import ZifyBool ZifyNat.
From Verif Require Import BigIntModel PrimeFieldModel SemigroupModel SmallFieldModel SmallFieldSpec SmallFieldProof Pocklington Zp.
Import ListNotations.
Open Scope Z_scope.

Section Rep.
  Variable p : Z.
  Hypotheses (Hodd : Z.odd p = true) (Hp : 2 < p < 2 ^ 31).
  Lemma rep_iff a x : represents32 p a x <-> 0 <= a < p /\ sfm_value p a = x mod p.
  Proof.
    unfold represents32. split; intros [R E]; split; try exact R.
    - apply dec_eq; auto. unfold eqm. rewrite <- E. symmetry. apply Z.mod_small. exact R.
    - destruct (dec_range p Hodd Hp a R) as [_ E2]. unfold eqm in E2. rewrite E in E2.
      rewrite Z.mul_mod_idemp_l in E2 by lia. rewrite E2. symmetry. apply Z.mod_small. exact R.
  Qed.
  Lemma rep_ops a b x y : represents32 p a x -> represents32 p b y ->
    represents32 p (sfm_add p a b) (x + y) /\ represents32 p (sfm_sub p a b) (x - y) /\
    represents32 p (sfm_neg p a) (- x) /\ represents32 p (sfm_mul p a b) (x * y) /\
    represents32 p (sfm_add p a a) (2 * x) /\ represents32 p (sfm_mul p a a) (x * x).
  Proof.
    intros Ha Hb. apply rep_iff in Ha, Hb. destruct Ha as [Ra Ea]. destruct Hb as [Rb Eb].
    destruct (sfm_ring p Hodd Hp a b Ra Rb) as ([A1 A2] & [B1 B2] & [C1 C2] & [D1 D2]).
    destruct (sfm_ring p Hodd Hp a a Ra Ra) as ([F1 F2] & _ & _ & [G1 G2]).
    split; [|split; [|split; [|split; [|split]]]]; apply (proj2 (rep_iff _ _)); split; try assumption;
      rewrite ?A2, ?B2, ?C2, ?D2, ?F2, ?G2, ?Ea, ?Eb.
    - symmetry. apply Z.add_mod. lia.
    - symmetry. apply Zminus_mod.
    - change (- (x mod p)) with (0 - x mod p). rewrite Zminus_mod_idemp_r. reflexivity.
    - symmetry. apply Z.mul_mod. lia.
    - rewrite <- Z.add_mod by lia. f_equal. ring.
    - symmetry. apply Z.mul_mod. lia.
  Qed.
  Lemma rep_conv :
    (forall v, 0 <= v < 2 ^ 32 -> represents32 p (sfm_of p v) v) /\
    (forall v, 0 <= v < 2 ^ 64 -> represents32 p (to_mont64 p v) v) /\
    (forall a x, represents32 p a x -> sfm_value p a = x mod p) /\
    (forall v, 0 <= v < p -> sfm_value p (sfm_of p v) = v) /\
    (forall a, 0 <= a < p -> sfm_of p (sfm_value p a) = a) /\
    (forall a b x y, represents32 p a x -> represents32 p b y ->
      (a =? b) = (x mod p =? y mod p) /\ sfm_ltb p a b = (x mod p <? y mod p)).
  Proof.
    split; [|split; [|split; [|split; [|split]]]].
    - intros v Hv. apply rep_iff. apply to_mont_spec; auto.
    - intros v Hv. apply rep_iff. apply to_mont64_spec; auto.
    - intros a x H. apply rep_iff in H. apply H.
    - intros v Hv. unfold sfm_of. destruct (to_mont_spec p Hodd Hp v ltac:(lia)) as [_ E]. rewrite E.
      apply Z.mod_small. exact Hv.
    - intros a Ha. apply mont_roundtrip; auto.
    - intros a b x y Ha Hb. apply rep_iff in Ha, Hb. destruct Ha as [Ra Ea]. destruct Hb as [Rb Eb].
      unfold sfm_ltb. change (from_mont p a) with (sfm_value p a). change (from_mont p b) with (sfm_value p b).
      rewrite <- Ea, <- Eb. split; [|reflexivity].
      apply eq_true_iff_eq. rewrite !Z.eqb_eq. split; [congruence|]. apply sfm_inj; auto.
  Qed.
  Lemma rep_pow a x e : represents32 p a x -> 0 <= e < 2 ^ 64 ->
    represents32 p (do_pow (sfm_one p) (sfm_mul p) (fun y => sfm_mul p y y) [e] a) (x ^ e).
  Proof.
    intros Ha He. apply rep_iff in Ha. destruct Ha as [Ra Ea].
    destruct (sfm_pow p Hodd Hp a e Ra He) as [R E]. apply rep_iff. split; [exact R|].
    rewrite E, Ea. symmetry. apply Zpower_mod. lia.
  Qed.
  Lemma rep_inverse a x : prime p -> represents32 p a x ->
    match sfm_inverse p a with
    | None => x mod p = 0
    | Some i => x mod p <> 0 /\ exists y, represents32 p i y /\ (x * y) mod p = 1
    end.
  Proof.
    intros Hpr Ha. apply rep_iff in Ha. destruct Ha as [Ra Ea].
    pose proof (sfm_inverse_spec p Hodd Hp a Hpr Ra) as H. destruct (sfm_inverse p a) as [i|].
    - destruct H as (N & R & E). split; [rewrite <- Ea; exact N|]. exists (sfm_value p i). split.
      + apply rep_iff. split; [exact R|]. symmetry. apply Z.mod_small. apply (dec_range p Hodd Hp i R).
      + rewrite Ea in E. rewrite Z.mul_mod_idemp_l in E by lia. exact E.
    - rewrite <- Ea. exact H.
  Qed.
End Rep.

Definition baby_bear : Z := 2013265921.
Definition koala_bear : Z := 2130706433.

Lemma m31_ring a b : 0 <= a < mersenne31 -> 0 <= b < mersenne31 ->
  sf_add mersenne31 a b = (a + b) mod mersenne31 /\ sf_sub mersenne31 a b = (a - b) mod mersenne31 /\
  sf_neg mersenne31 a = (- a) mod mersenne31 /\ sf_mul mersenne31_reduce64 a b = (a * b) mod mersenne31.
Proof.
  apply sf_ring; [unfold mersenne31; lia|]. intros v Hv. apply mersenne31_reduce. unfold mersenne31 in *. lia.
Qed.
Lemma m31_inverse a : 0 <= a < mersenne31 ->
  match sf_inverse mersenne31 a with
  | Undefined => False
  | NoInverse => a = 0
  | Inv i => a <> 0 /\ 0 < i < mersenne31 /\ (a * i) mod mersenne31 = 1
  end.
Proof. apply sf_inverse_prime; [unfold mersenne31; lia|exact mersenne31_prime]. Qed.
Lemma egcd_correct x y : 0 <= x < 2 ^ 63 -> 0 <= y < 2 ^ 63 ->
  exists s t, egcd x y = Some (s, t, Z.gcd x y) /\ s * x + t * y = Z.gcd x y.
Proof. intros Hx Hy. destruct (egcd_spec x y Hx Hy) as (s & t & E & B & _). exists s, t. auto. Qed.
Lemma default_reduction_wrong : exists p a b, prime p /\ 1 < p < 2 ^ 31 /\ 0 <= a < p /\ 0 <= b < p /\
  sf_mul (reduce_default p) a b <> (a * b) mod p.
Proof.
  exists 7, 5, 6. split; [apply prime_check_sound; reflexivity|]. split; [lia|]. split; [lia|]. split; [lia|].
  vm_compute. discriminate.
Qed.
Lemma default_reduction_small p v : 1 < p -> 0 <= v < 2 * p -> reduce_default p v = v mod p.
Proof.
  intros Hp Hv. unfold reduce_default. destruct (p <=? v) eqn:C.
  - apply Z.mod_unique_pos with (q := 1); lia.
  - symmetry. apply Z.mod_small. lia.
Qed.
Lemma large_modulus_add_wrong : exists p a b, 2 ^ 31 < p < 2 ^ 32 /\ 0 <= a < p /\ 0 <= b < p /\
  sf_add p a b <> (a + b) mod p.
Proof. exists 4294967291, 4294967290, 10. split; [lia|]. split; [lia|]. split; [lia|]. vm_compute. discriminate. Qed.
