(** Corollaries: inversion in prime fields, and the statements in terms of the API. *)
From Coq Require Import ZArith List Bool Lia Znumtheory.
From Verif Require Import ByModel BySpec ByProof ByProof2 ByProof3 ByProof4.
Import ListNotations.
Open Scope Z_scope.

Lemma invert_total N mm a x :
  length mm = N -> length a = N -> length x = N -> in_base 64 mm -> in_base 64 a -> in_base 64 x ->
  Z.odd (digits 64 mm) = true -> digits 64 a < digits 64 mm -> Z.of_nat N < 2 ^ 55 ->
  exists k, forall fuel, (k <= fuel)%nat ->
  match invert fuel N (make N mm a) x with
  | None => False
  | Some None => Z.gcd (digits 64 x) (digits 64 mm) <> 1
  | Some (Some r) => Z.gcd (digits 64 x) (digits 64 mm) = 1 /\ length r = N /\ in_base 64 r /\ digits 64 r < digits 64 mm /\
      (digits 64 r * digits 64 x) mod digits 64 mm = digits 64 a
  end.
Proof.
  intros Lm La Lx Im Ia Ix Ho Hlt HN. destruct (invert_ends N mm a x Lm La Lx Im Ia Ix Ho Hlt HN) as [k Hk].
  exists k. intros fuel Hf. specialize (Hk fuel Hf). pose proof (invert_ok N mm a x fuel Lm La Lx Im Ia Ix Ho Hlt HN) as H.
  destruct (invert fuel N (make N mm a) x) as [[r|]|]; [exact H | exact H | congruence].
Qed.
Lemma modular_inverse p a : prime p -> a mod p <> 0 -> exists b, (a * b) mod p = 1.
Proof.
  intros Hp Ha. pose proof (prime_ge_2 p Hp). assert (rel_prime a p).
  { apply rel_prime_sym, prime_rel_prime; [exact Hp |]. intros D. apply Ha. apply Z.mod_divide; [lia | exact D]. }
  apply rel_prime_bezout in H0. destruct H0 as [u v E]. exists u.
  replace (a * u) with (1 + (- v) * p) by lia. rewrite Z.mod_add by lia. apply Z.mod_small. lia.
Qed.
Lemma field_inverse_total N m r2 x a :
  length m = N -> length r2 = N -> length x = N -> in_base 64 m -> in_base 64 r2 -> in_base 64 x ->
  prime (digits 64 m) -> digits 64 m <> 2 ->
  digits 64 r2 = (2 ^ (64 * Z.of_nat N) * 2 ^ (64 * Z.of_nat N)) mod digits 64 m ->
  digits 64 x = (a * 2 ^ (64 * Z.of_nat N)) mod digits 64 m -> Z.of_nat N < 2 ^ 55 ->
  exists k, forall fuel, (k <= fuel)%nat ->
  match field_inverse fuel N m r2 x with
  | None => False
  | Some None => a mod digits 64 m = 0
  | Some (Some r) => length r = N /\ in_base 64 r /\
      exists b, (a * b) mod digits 64 m = 1 /\ digits 64 r = (b * 2 ^ (64 * Z.of_nat N)) mod digits 64 m
  end.
Proof.
  intros Lm La Lx Im Ia Ix Hp H2 Er Ex HN. pose proof (prime_ge_2 _ Hp) as Hge.
  assert (Ho : Z.odd (digits 64 m) = true).
  { destruct (Z.odd (digits 64 m)) eqn:O; [reflexivity |]. exfalso. apply H2. symmetry.
    apply prime_div_prime; [exact prime_2 | exact Hp |]. apply Z.mod_divide; [lia |]. rewrite Zmod_odd, O. reflexivity. }
  destruct (invert_total N m r2 x Lm La Lx Im Ia Ix Ho) as [k Hk]; [rewrite Er; apply Z.mod_pos_bound; lia | exact HN |].
  exists k. intros fuel Hf. specialize (Hk fuel Hf). unfold field_inverse. rewrite Ex in Hk.
  set (p := digits 64 m) in *. set (R := 2 ^ (64 * Z.of_nat N)) in *.
  assert (CR : Z.gcd p R = 1) by (apply odd_coprime_pow; [exact Ho | lia]).
  destruct (invert fuel N (make N m r2) x) as [[r|]|]; [| | exact Hk].
  - destruct Hk as (G & Lr & Ir & Hr & Er2). split; [exact Lr |]. split; [exact Ir |].
    assert (Ha : a mod p <> 0).
    { intros E. rewrite <- Z.mul_mod_idemp_l, E, Z.mul_0_l, Z.mod_0_l, Z.gcd_0_l in G by lia. lia. }
    destruct (modular_inverse p a Hp Ha) as [b Eb]. exists b. split; [exact Eb |].
    pose proof (digits_nonneg 64 r ltac:(lia) Ir) as Nr. rewrite <- (Z.mod_small (digits 64 r) p) by lia.
    set (v := digits 64 r) in *. clearbody v. rewrite Er, Z.mul_mod_idemp_r in Er2 by lia.
    assert (D : (p | R * (v * a - R))).
    { replace (R * (v * a - R)) with (v * (a * R) - R * R) by ring. apply Z.mod_divide; [lia |].
      rewrite Zminus_mod, Er2, Z.sub_diag. apply Z.mod_0_l. lia. }
    apply Z.gauss in D; [| exact CR]. assert (E1 : (v * a) mod p = R mod p).
    { destruct D as [c D]. replace (v * a) with (R + c * p) by lia. apply Z.mod_add. lia. }
    rewrite <- (Z.mul_mod_idemp_r b R), <- E1, Z.mul_mod_idemp_r by lia. replace (b * (v * a)) with (v * (a * b)) by ring.
    rewrite <- (Z.mul_mod_idemp_r v (a * b)), Eb, Z.mul_1_r by lia. reflexivity.
  - destruct (Z.eq_dec (a mod p) 0) as [E | E]; [exact E |]. exfalso. apply Hk. clear Hk.
    apply Zgcd_1_rel_prime. apply rel_prime_mod; [lia |]. apply rel_prime_sym. apply rel_prime_mult.
    + apply prime_rel_prime; [exact Hp |]. intros D. apply E. apply Z.mod_divide; [lia | exact D].
    + apply Zgcd_1_rel_prime. exact CR.
Qed.
Lemma jump_total F G d : Z.odd F = true -> Z.abs d + 62 < 2 ^ 62 ->
  exists d' t00 t01 t10 t11, jump (F mod 2 ^ 62) (G mod 2 ^ 62) d = Some (d', (t00, t01, t10, t11)) /\
  Z.abs d' <= Z.abs d + 62 /\
  (exists f', t00 * F + t01 * G = 2 ^ 62 * f' /\ Z.odd f' = true) /\ (exists g', t10 * F + t11 * G = 2 ^ 62 * g') /\
  t00 * t11 - t01 * t10 = 2 ^ 62 /\ Z.abs t00 + Z.abs t01 <= 2 ^ 62 /\ Z.abs t10 + Z.abs t11 <= 2 ^ 62.
Proof.
  intros H Hd. destruct (jump_ok F G d H Hd) as ((d', [[[t00 t01] t10] t11]) & E & Fi). exists d', t00, t01, t10, t11. split; [exact E | exact Fi].
Qed.
Lemma arith_ok n l l' z z' t : represents n l z -> represents n l' z' -> - 2 ^ 63 < t < 2 ^ 63 ->
  represents n (c_add l l') (z + z') /\ represents n (c_neg l) (- z) /\ represents n (c_mul l t) (z * t).
Proof. intros R R' Ht. split; [apply rep_add; assumption |]. split; [apply rep_neg; exact R | apply rep_mul; assumption]. Qed.
Lemma observe_ok n l l' z z' : (0 < n)%nat -> represents n l z -> represents n l' z' -> representable n z -> representable n z' ->
  represents n (c_shift l) (z / 2 ^ 62) /\ is_negative l = (z <? 0) /\ c_eqb l l' = (z =? z') /\ lowest l = z mod 2 ^ 62.
Proof.
  intros Hn R R' Z1 Z2. pose proof (rep_lowest n l z Hn R) as Lo. destruct n as [|m]; [lia |].
  split; [apply rep_shift; assumption |]. split; [apply (rep_negative m); assumption |].
  split; [apply (rep_eqb m); assumption | exact Lo].
Qed.
Lemma load_save n N l : in_base 64 l -> length l = N -> (64 * N < 62 * n)%nat ->
  represents n (load l n) (digits 64 l) /\ save (load l n) N = l.
Proof.
  intros H L Hn. pose proof (load_ok l n H) as R. split; [exact R |]. destruct n as [|m]; [lia |].
  pose proof (digits64_bound l H) as B. rewrite L in B.
  assert (Rg : representable (S m) (digits 64 l)).
  { unfold representable. assert (2 ^ (64 * Z.of_nat N) <= 2 ^ (62 * Z.of_nat (S m) - 1)) by (apply pow_le; lia). lia. }
  destruct (save_ok m _ _ N R Rg ltac:(lia)) as (S1 & S2 & S3). rewrite Z.mod_small in S3 by lia.
  clear - S1 S2 S3 H L. revert S1 S2 S3. set (s := save _ N). clearbody s. subst N. revert s.
  induction l as [|x l IH]; intros [|y s] S1 S2 S3; try discriminate; [reflexivity |].
  rewrite !digits_cons in S3. inversion_clear S2. inversion_clear H. injection S1 as S1.
  assert (y = x).
  { rewrite <- (Z.mod_small x (2 ^ 64)), <- (Z.mod_small y (2 ^ 64)) by assumption.
    rewrite <- (Z.mod_add x (digits 64 l)), <- (Z.mod_add y (digits 64 s)) by lia. f_equal. lia. }
  subst. f_equal. apply IH; try assumption. lia.
Qed.
