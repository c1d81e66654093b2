(** Goldilocks: p = 2^64 - 2^32 + 1 is prime (Lucas), and what GetRootOfUnity returns on x86-64. *)
From Coq Require Import ZArith Znumtheory Zpow_facts List Bool Arith Lia Ring Field Field_theory.
From Verif Require Import Field Zp BigIntModel BigIntSpec MixedModel MixedProof SemigroupModel SemigroupProof SemigroupExtra FFTSpec FFTProof5 SqrtModel SqrtSpec SqrtProof SqrtProof2 SqrtProof3.
Import ListNotations.
Open Scope Z_scope.

Lemma prime_divisor_nat : forall k n, 1 < n -> Z.to_nat n = k -> exists r, prime r /\ (r | n).
Proof.
  induction k as [k IH] using lt_wf_ind. intros n Hn Ek. destruct (prime_dec n) as [P|NP].
  - exists n. split; [exact P|apply Z.divide_refl].
  - destruct (not_prime_divide n Hn NP) as (m & Hm & D). destruct (IH (Z.to_nat m)) with (n := m) as (r & Pr & Dr); try lia.
    exists r. split; [exact Pr|]. eapply Z.divide_trans; eassumption.
Qed.
Lemma prime_divisor n : 1 < n -> exists r, prime r /\ (r | n).
Proof. intros H. exact (prime_divisor_nat _ n H eq_refl). Qed.

Lemma fpow_gcd (K : fld) (x : K) : forall a b, fpow x a = f1 -> fpow x b = f1 -> fpow x (Nat.gcd a b) = f1.
Proof.
  induction a as [a IH] using lt_wf_ind. intros b Ha Hb. destruct a as [|a]; [exact Hb|].
  cbn [Nat.gcd]. apply IH.
  - change (Nat.modulo b (S a) < S a)%nat. apply Nat.mod_upper_bound. lia.
  - change (fpow x (Nat.modulo b (S a)) = f1). rewrite (Nat.div_mod b (S a) ltac:(lia)) in Hb. rewrite fpow_add, fpow_mul, Ha, fpow_one in Hb.
    rewrite <- Hb. pose proof (fld_theory K) as [[]]. symmetry. apply Rmul_1_l.
  - exact Ha.
Qed.
Lemma mod_of_mod a d p : (d | p) -> 0 < d -> 0 < p -> (a mod p) mod d = a mod d.
Proof. intros [c ->] Hd Hp. assert (0 < c) by nia. rewrite (Z.mul_comm c d). rewrite Z.rem_mul_r by lia. rewrite Z.mul_comm, Z_mod_plus_full. apply Z.mod_mod. lia. Qed.

Lemma lucas p g qs : 1 < p -> (forall r, prime r -> (r | p - 1) -> In r qs) -> Zpow_mod g (p - 1) p = 1 ->
  (forall q, In q qs -> Z.gcd (Zpow_mod g ((p - 1) / q) p - 1) p = 1) -> prime p.
Proof.
  intros Hp Hqs H1 Hq. destruct (prime_divisor p Hp) as (d & Pd & Dd). pose proof (prime_ge_2 d Pd) as D2.
  assert (Ld : d <= p) by (apply Z.divide_pos_le; [lia|exact Dd]).
  destruct (Z.eq_dec d p) as [E|N]; [rewrite <- E; exact Pd|exfalso].
  rewrite Zpow_mod_correct in H1 by lia.
  set (x := mkz d Pd g : Zp d Pd).
  assert (D3 : 2 < d).
  { destruct (Z.eq_dec d 2) as [E|]; [|lia]. exfalso.
    assert (I2 : p = 2 \/ exists r, prime r /\ (r | p - 1)) by (destruct (Z.eq_dec p 2); [left; assumption|right; apply prime_divisor; lia]).
    destruct I2 as [->|(r & Pr & Dr)]; [lia|]. pose proof (Hq r (Hqs r Pr Dr)) as G.
    assert (X : forall k, 0 <= k -> (g ^ k mod p) mod d = g ^ k mod d) by (intros; apply mod_of_mod; lia || assumption).
    assert (O : g mod 2 = 1).
    { pose proof (Z.mod_pos_bound g 2 ltac:(lia)). assert (g mod 2 <> 0); [|lia]. intros E0.
      pose proof (X (p - 1) ltac:(lia)) as Y. rewrite H1, E in Y. rewrite Zpower_mod, E0, Z.pow_0_l in Y by lia. discriminate. }
    assert (2 | 1); [|apply Z.divide_1_r in H; lia]. rewrite <- G. apply Z.gcd_greatest.
    - apply Z.mod_divide; [lia|]. rewrite Zpow_mod_correct by lia. rewrite Zminus_mod, <- E. rewrite X by (apply Z.div_pos; [lia|pose proof (prime_ge_2 r Pr); lia]).
      rewrite E. rewrite Zpower_mod, O, Z.pow_1_l by (first [lia | apply Z.div_pos; [lia|pose proof (prime_ge_2 r Pr); lia]]). reflexivity.
    - rewrite <- E. exact Dd. }
  assert (XP : forall k, 0 <= k -> fpow x (Z.to_nat k) = f1 <-> (g ^ k mod p) mod d = 1).
  { intros k Hk. rewrite mod_of_mod by (lia || assumption). split; intros E.
    - apply (f_equal (zval d)) in E. rewrite (zpow_val d Pd D3), (zval_1 d Pd D3), Z2Nat.id in E by lia. unfold x in E. rewrite zval_mkz in E.
      rewrite <- Zpower_mod in E by lia. exact E.
    - apply zp_eq. rewrite (zpow_val d Pd D3), (zval_1 d Pd D3), Z2Nat.id by lia. unfold x. rewrite zval_mkz, <- Zpower_mod by lia. exact E. }
  assert (XN : fpow x (Z.to_nat (p - 1)) = f1). { apply XP; [lia|]. rewrite H1. apply Z.mod_small. lia. }
  assert (X0 : x <> f0). { intros E. rewrite E, fpow_0 in XN by lia. apply (f1_neq_0 (Zp d Pd)). auto. }
  pose proof (zfermat d Pd D3 x X0) as XD.
  pose proof (fpow_gcd (Zp d Pd) x _ _ XD XN) as XG. set (e := Nat.gcd (Z.to_nat (d - 1)) (Z.to_nat (p - 1))) in *.
  assert (De : (Nat.divide e (Z.to_nat (d - 1)))) by apply Nat.gcd_divide_l. assert (Dn : (Nat.divide e (Z.to_nat (p - 1)))) by apply Nat.gcd_divide_r.
  destruct Dn as [c Ec]. assert (Le : (e <= Z.to_nat (d - 1))%nat) by (apply Nat.divide_pos_le; [lia|exact De]).
  assert (1 < Z.of_nat c) by (destruct c as [|[|c]]; [lia|lia|lia]). destruct (prime_divisor (Z.of_nat c) H) as (r & Pr & [c' Er]). pose proof (prime_ge_2 r Pr) as R2.
  assert (0 < c') by (apply (Z.mul_pos_cancel_r c' r); lia).
  assert (EN : p - 1 = (Z.of_nat e * c') * r).
  { transitivity (Z.of_nat c * Z.of_nat e); [rewrite <- Nat2Z.inj_mul, <- Ec; lia|]. rewrite Er. ring. }
  assert (Hr : In r qs) by (apply Hqs; [exact Pr|exists (Z.of_nat e * c'); exact EN]).
  pose proof (Hq r Hr) as G. assert (Eq : (p - 1) / r = Z.of_nat e * c') by (rewrite EN; apply Z.div_mul; lia). rewrite Eq in G.
  rewrite Zpow_mod_correct in G by lia.
  assert (XR : (g ^ (Z.of_nat e * c') mod p) mod d = 1).
  { apply XP; [apply Z.mul_nonneg_nonneg; lia|]. rewrite Z2Nat.inj_mul, Nat2Z.id by lia. rewrite fpow_mul, XG. apply fpow_one. }
  assert (DD : (d | 1)).
  { rewrite <- G. apply Z.gcd_greatest; [|exact Dd]. apply Z.mod_divide; [lia|]. rewrite Zminus_mod, XR, (Z.mod_small 1) by lia. reflexivity. }
  apply Z.divide_1_r in DD. lia.
Qed.

Definition gold : Z := 2 ^ 64 - 2 ^ 32 + 1.
Lemma prime_65537 : prime 65537.
Proof.
  apply (lucas 65537 3 [2]); [lia| |vm_compute; reflexivity|].
  - intros r Pr D. change (65537 - 1) with (2 ^ 16) in D. left. symmetry. apply (prime_power_prime r 2 16); [lia|exact Pr|exact prime_2|exact D].
  - intros q [<-|[]]. vm_compute. reflexivity.
Qed.
Lemma gold_prime : prime gold.
Proof.
  apply (lucas gold 7 [2; 3; 5; 17; 257; 65537]); [reflexivity| |vm_compute; reflexivity|].
  - intros r Pr D. change (gold - 1) with (2 ^ 32 * (3 * (5 * (17 * (257 * 65537))))) in D.
    apply prime_mult in D; [|exact Pr]. destruct D as [D|D].
    { left. symmetry. apply (prime_power_prime r 2 32); [lia|exact Pr|exact prime_2|exact D]. }
    apply prime_mult in D; [|exact Pr]. destruct D as [D|D]; [right; left; symmetry; apply prime_div_prime; [exact Pr|exact (prime_check_sound 3 eq_refl)|exact D]|].
    apply prime_mult in D; [|exact Pr]. destruct D as [D|D]; [do 2 right; left; symmetry; apply prime_div_prime; [exact Pr|exact (prime_check_sound 5 eq_refl)|exact D]|].
    apply prime_mult in D; [|exact Pr]. destruct D as [D|D]; [do 3 right; left; symmetry; apply prime_div_prime; [exact Pr|exact (prime_check_sound 17 eq_refl)|exact D]|].
    apply prime_mult in D; [|exact Pr]. destruct D as [D|D]; [do 4 right; left; symmetry; apply prime_div_prime; [exact Pr|exact (prime_check_sound 257 eq_refl)|exact D]|].
    do 5 right; left; symmetry; apply prime_div_prime; [exact Pr|exact prime_65537|exact D].
  - intros q Hq. repeat (destruct Hq as [<-|Hq]; [vm_compute; reflexivity|]). destruct Hq.
Qed.

Definition Gold : fld := Zp gold gold_prime.
(** goldilocks/internal/BUILD.bazel: subgroup_generator = 7, small_subgroup_base = 3, small_subgroup_adicity = 1; on x86-64 the
    constant, which the generator writes in Montgomery form, is read as the element itself (prime_field_base.h:104). *)
Definition gold_omega : Gold := mkz gold gold_prime (to_mont 64 gold (gen_large_root gold 7 3 1)).
Lemma gold_lt : 2 < gold. Proof. reflexivity. Qed.
Lemma gold_large : gen_large_root gold 7 3 1 = Zpow_mod 7 1431655765 gold.
Proof.
  rewrite Zpow_mod_correct by (pose proof gold_lt; lia). unfold gen_large_root.
  replace (compute_trace 2 (gold - 1) / (3 ^ 1 mod gold)) with 1431655765 by (vm_compute; reflexivity). reflexivity.
Qed.
(** The small field elements the computations below go through. *)
Lemma gold_iter x k : zval gold (Nat.iter k (fun y : Gold => fmul y y) (mkz gold gold_prime x)) = Nat.iter k (fun y => (y * y) mod gold) (x mod gold).
Proof.
  induction k; [reflexivity|].
  change (Nat.iter (S k) (fun y => (y * y) mod gold) (x mod gold)) with ((Nat.iter k (fun y => (y * y) mod gold) (x mod gold) * Nat.iter k (fun y => (y * y) mod gold) (x mod gold)) mod gold).
  rewrite <- IHk. reflexivity.
Qed.
Lemma gold_sq32 : Nat.iter 32 (fun y : Gold => fmul y y) gold_omega = f1.
Proof.
  apply zp_eq. unfold gold_omega. rewrite gold_iter, gold_large. change (zval gold (f1 : Gold)) with (1 mod gold). vm_compute. reflexivity.
Qed.
Lemma gold_three : get_root_large 32 3 1 gold_omega 3 = Some (f1 : Gold).
Proof.
  rewrite <- gold_sq32. unfold get_root_large. replace (decompose 3 3) with (Some (1, 0)) by (vm_compute; reflexivity).
  replace ((Z.of_nat 32 <? 0) || (Z.of_nat 1 <? 1)) with false by (vm_compute; reflexivity).
  change (1 - Z.to_nat 1)%nat with 0%nat. change (32 - Z.to_nat 0)%nat with 32%nat. 
  change (Nat.iter 0 (fun x => do_pow f1 fmul (fun y : Gold => fmul y y) [3] x) gold_omega) with gold_omega. cbv zeta. reflexivity.
Qed.
Lemma gold_cube : fmul (fmul gold_omega gold_omega) gold_omega = mkz gold gold_prime (Zpow_mod 7 (3 * 1431655765) gold) :> Gold.
Proof.
  apply zp_eq. unfold gold_omega. rewrite gold_large. 
  change (((((to_mont 64 gold (Zpow_mod 7 1431655765 gold)) mod gold * ((to_mont 64 gold (Zpow_mod 7 1431655765 gold)) mod gold)) mod gold * ((to_mont 64 gold (Zpow_mod 7 1431655765 gold)) mod gold)) mod gold) = (Zpow_mod 7 (3 * 1431655765) gold) mod gold).
  vm_compute. reflexivity.
Qed.
Section Cube.
  Variable K : fld.
  Add Field Ksq5 : (fld_theory K).
  Lemma cube_pow (x : K) : fpow x 3 = fmul (fmul x x) x. Proof. cbn [fpow]. ring. Qed.
End Cube.
Lemma gold_half : fpow (fpow gold_omega 3) (2 ^ (32 - 1)) = fopp (f1 : Gold).
Proof.
  rewrite (cube_pow Gold gold_omega), gold_cube, <- (iter_square Gold). apply zp_eq. rewrite gold_iter.
  change (zval gold (fopp (f1 : Gold))) with ((- (1 mod gold)) mod gold). vm_compute. reflexivity.
Qed.
Lemma gold_pow2 i : (i <= 32)%nat -> exists w, get_root_large 32 3 1 gold_omega (2 ^ Z.of_nat i) = Some w /\ primitive_root w (2 ^ i).
Proof.
  intros Hi. unfold get_root_large.
  assert (2 ^ Z.of_nat i <= 2 ^ 32) by (apply Z.pow_le_mono_r; lia). 
  rewrite (decompose_some 3 (2 ^ Z.of_nat i) (Z.of_nat i) 0) by first [reflexivity | lia | rewrite Z.pow_0_r; lia].
  replace ((Z.of_nat 32 <? Z.of_nat i) || (Z.of_nat 1 <? 0)) with false by (destruct (Z.ltb_spec (Z.of_nat 32) (Z.of_nat i)); [lia|reflexivity]).
  cbv zeta. rewrite Nat2Z.id. rewrite (iter_square Gold), (iter_pow Gold) by lia. change (Z.to_nat 3 ^ (1 - Z.to_nat 0))%nat with 3%nat.
  eexists. split; [reflexivity|]. apply primitive_pow; [pose proof (Nat.pow_nonzero 2 (32 - i)); lia|].
  rewrite <- Nat.pow_add_r. replace (32 - i + i)%nat with 32%nat by lia.
  apply primitive_half; [lia|apply (m1_neq gold gold_prime gold_lt)|exact gold_half].
Qed.
