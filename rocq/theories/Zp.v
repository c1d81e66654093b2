(** The prime field Z/p as an instance of [fld], via Fermat's little theorem. *)
From Coq Require Import ZArith List Bool Lia Znumtheory Zpow_facts Field_theory Ring_theory Eqdep_dec Permutation.
From Coq Require Import ZifyBool ZifyNat.
From Verif Require Import Field.
Import ListNotations.
Open Scope Z_scope.

Section Fermat.
  Variable p : Z.
  Hypothesis Hp : prime p.
  Let p_gt1 : 1 < p. Proof. pose proof (prime_ge_2 p Hp). lia. Qed.

  Lemma prime_coprime a : 0 < a < p -> rel_prime a p.
  Proof. intros H. apply rel_prime_sym, prime_rel_prime; auto. intros D. apply Z.divide_pos_le in D; lia. Qed.
  Lemma mod_mul_cancel a x y : rel_prime a p -> (a * x) mod p = (a * y) mod p -> x mod p = y mod p.
  Proof.
    intros Hc H. pose proof p_gt1 as P1. assert (D : (p | a * (x - y))).
    { exists ((a * x) / p - (a * y) / p).
      pose proof (Z.div_mod (a * x) p ltac:(lia)). pose proof (Z.div_mod (a * y) p ltac:(lia)). nia. }
    apply Gauss in D; [|apply rel_prime_sym; exact Hc].
    destruct D as [k Ek]. replace x with (y + k * p) by lia. apply Z.mod_add. lia.
  Qed.
  Let L := map Z.of_nat (seq 1 (Z.to_nat p - 1)).
  Lemma L_in x : In x L <-> 0 < x < p.
  Proof.
    unfold L. rewrite in_map_iff. split.
    - intros (k & <- & Hk). apply in_seq in Hk. lia.
    - intros H. exists (Z.to_nat x). split; [lia|]. apply in_seq. lia.
  Qed.
  Lemma L_nodup : NoDup L.
  Proof.
    unfold L. generalize (seq_NoDup (Z.to_nat p - 1) 1). induction (seq 1 (Z.to_nat p - 1)) as [|x l IH]; cbn [map].
    - constructor.
    - intros H. inversion H; subst. constructor; [|auto].
      intros Hin. apply in_map_iff in Hin. destruct Hin as (y & E & Hy). apply Nat2Z.inj in E. subst. contradiction.
  Qed.
  Fixpoint zprod (l : list Z) : Z := match l with [] => 1 | x :: r => x * zprod r end.
  Lemma zprod_perm a b : Permutation a b -> zprod a = zprod b.
  Proof. induction 1; cbn [zprod]; [reflexivity | rewrite IHPermutation; ring | ring | congruence]. Qed.
  Lemma zprod_scaled a l : zprod (map (fun i => (a * i) mod p) l) mod p = (a ^ Z.of_nat (length l) * zprod l) mod p.
  Proof.
    pose proof p_gt1 as P1. induction l as [|x l IH]; cbn [map zprod length].
    - reflexivity.
    - rewrite Z.mul_mod_idemp_l by lia. rewrite <- Z.mul_mod_idemp_r, IH, Z.mul_mod_idemp_r by lia.
      rewrite Nat2Z.inj_succ, Z.pow_succ_r by lia. f_equal. ring.
  Qed.
  Lemma zprod_coprime l : (forall x, In x l -> 0 < x < p) -> rel_prime (zprod l) p.
  Proof.
    induction l as [|x l IH]; intros H; cbn [zprod].
    - apply rel_prime_1.
    - apply rel_prime_sym, rel_prime_mult; apply rel_prime_sym.
      + apply prime_coprime, H. left. reflexivity.
      + apply IH. intros y Hy. apply H. right. exact Hy.
  Qed.
  Theorem fermat a : 0 < a < p -> a ^ (p - 1) mod p = 1.
  Proof.
    intros Ha. pose proof p_gt1 as P1. pose proof (prime_coprime a Ha) as Hc.
    assert (HP : Permutation (map (fun i => (a * i) mod p) L) L).
    { apply NoDup_Permutation_bis.
      - assert (Hinj : forall x y, In x L -> In y L -> (a * x) mod p = (a * y) mod p -> x = y).
        { intros x y Hx Hy E. apply L_in in Hx, Hy. apply mod_mul_cancel in E; auto.
          rewrite !Z.mod_small in E by lia. exact E. }
        pose proof L_nodup as HN. revert Hinj. clearbody L.
        induction L as [|x l IH]; intros Hinj; cbn [map]; constructor.
        + intros Hin. apply in_map_iff in Hin. destruct Hin as (y & E & Hy).
          inversion HN; subst. assert (y = x) by (apply Hinj; [right; auto | left; auto | exact E]). subst. contradiction.
        + inversion HN; subst. apply IH; auto. intros u v Hu Hv. apply Hinj; right; auto.
      - rewrite map_length. lia.
      - intros z Hz. apply in_map_iff in Hz. destruct Hz as (x & <- & Hx). apply L_in in Hx. apply L_in.
        pose proof (Z.mod_pos_bound (a * x) p ltac:(lia)). assert ((a * x) mod p <> 0); [|lia].
        intros E. apply Z.mod_divide in E; [|lia]. apply Gauss in E; [|apply rel_prime_sym; exact Hc].
        apply Z.divide_pos_le in E; lia. }
    pose proof (zprod_scaled a L) as E. rewrite (zprod_perm _ _ HP) in E.
    assert (EL : Z.of_nat (length L) = p - 1) by (unfold L; rewrite map_length, seq_length; lia).
    rewrite EL in E.
    assert (E2 : (zprod L * 1) mod p = (zprod L * a ^ (p - 1)) mod p).
    { rewrite Z.mul_1_r, E. f_equal. ring. }
    apply mod_mul_cancel in E2; [|apply zprod_coprime; intros x Hx; apply L_in; exact Hx].
    rewrite <- E2. apply Z.mod_small. lia.
  Qed.
End Fermat.

Section ZpField.
  Variable p : Z.
  Hypothesis Hp : prime p.
  Let p_gt1 : 1 < p. Proof. pose proof (prime_ge_2 p Hp). lia. Qed.

  Definition zp_ok (x : Z) : bool := (0 <=? x) && (x <? p).
  Definition zp : Type := { x : Z | zp_ok x = true }.
  Definition zval (a : zp) : Z := proj1_sig a.
  Lemma zp_eq (a b : zp) : zval a = zval b -> a = b.
  Proof.
    destruct a as [x Hx], b as [y Hy]. cbn. intros ->. f_equal.
    apply UIP_dec. apply bool_dec.
  Qed.
  Lemma zp_mod_ok x : zp_ok (x mod p) = true.
  Proof. pose proof p_gt1. pose proof (Z.mod_pos_bound x p ltac:(lia)). unfold zp_ok. lia. Qed.
  Definition mkz (x : Z) : zp := exist _ (x mod p) (zp_mod_ok x).
  Lemma zval_mkz x : zval (mkz x) = x mod p. Proof. reflexivity. Qed.
  Lemma zval_range (a : zp) : 0 <= zval a < p.
  Proof. destruct a as [x Hx]. unfold zp_ok in Hx. cbn. lia. Qed.

  Definition zp_add a b := mkz (zval a + zval b).
  Definition zp_mul a b := mkz (zval a * zval b).
  Definition zp_sub a b := mkz (zval a - zval b).
  Definition zp_opp a := mkz (- zval a).
  Definition zp_inv a := mkz (Zpow_mod (zval a) (p - 2) p).
  Definition zp_div a b := zp_mul a (zp_inv b).
  Definition zp_eqb (a b : zp) := zval a =? zval b.

  Lemma zp_inv_l a : a <> mkz 0 -> zp_mul (zp_inv a) a = mkz 1.
  Proof.
    intros Ha. pose proof p_gt1 as P1. apply zp_eq. unfold zp_mul, zp_inv. rewrite !zval_mkz.
    assert (0 < zval a < p).
    { pose proof (zval_range a). assert (zval a <> 0); [|lia]. intros E. apply Ha. apply zp_eq.
      rewrite zval_mkz, E. symmetry. apply Z.mod_0_l. lia. }
    rewrite Zpow_mod_correct by lia. rewrite Z.mod_mod, Z.mul_mod_idemp_l by lia.
    replace (zval a ^ (p - 2) * zval a) with (zval a ^ (p - 1)).
    - rewrite (fermat p Hp) by assumption. symmetry. apply Z.mod_small. lia.
    - replace (p - 1) with (Z.succ (p - 2)) by lia. rewrite Z.pow_succ_r by lia. ring.
  Qed.
  Lemma zp_field_theory : field_theory (mkz 0) (mkz 1) zp_add zp_mul zp_sub zp_opp zp_div zp_inv (@eq zp).
  Proof.
    pose proof p_gt1 as P1.
    constructor.
    - constructor; intros; apply zp_eq; unfold zp_add, zp_mul, zp_sub, zp_opp; rewrite ?zval_mkz;
        rewrite ?Z.mod_0_l by lia.
      + rewrite Z.add_0_l. apply Z.mod_small, zval_range.
      + f_equal. ring.
      + rewrite Z.add_mod_idemp_r, Z.add_mod_idemp_l by lia. f_equal. ring.
      + rewrite Z.mul_mod_idemp_l, Z.mul_1_l by lia. apply Z.mod_small, zval_range.
      + f_equal. ring.
      + rewrite Z.mul_mod_idemp_r, Z.mul_mod_idemp_l by lia. f_equal. ring.
      + rewrite Z.mul_mod_idemp_l, <- Z.add_mod by lia. f_equal. ring.
      + rewrite Z.add_mod_idemp_r by lia. f_equal.
      + rewrite Z.add_mod_idemp_r by lia. rewrite Z.add_opp_diag_r. apply Z.mod_0_l. lia.
    - intros E. apply (f_equal zval) in E. rewrite !zval_mkz, Z.mod_0_l, Z.mod_small in E by lia. discriminate.
    - reflexivity.
    - apply zp_inv_l.
  Qed.
  Lemma zp_eqb_eq a b : zp_eqb a b = true <-> a = b.
  Proof. unfold zp_eqb. rewrite Z.eqb_eq. split; [apply zp_eq | intros ->; reflexivity]. Qed.

  Definition Zp : fld := {|
    car := zp; f0 := mkz 0; f1 := mkz 1; fadd := zp_add; fmul := zp_mul; fsub := zp_sub; fopp := zp_opp;
    finv := zp_inv; fdiv := zp_div; feqb := zp_eqb; fld_theory := zp_field_theory; feqb_eq := zp_eqb_eq |}.
End ZpField.

(** Primality of small moduli by trial division. *)
Definition prime_check (p : Z) : bool :=
  (1 <? p) && forallb (fun d => Z.gcd (Z.of_nat d) p =? 1) (seq 1 (Z.to_nat p - 1)).
Lemma prime_check_sound p : prime_check p = true -> prime p.
Proof.
  unfold prime_check. intros H. apply andb_true_iff in H. destruct H as [H1 H2].
  apply Z.ltb_lt in H1. rewrite forallb_forall in H2.
  constructor; [exact H1|]. intros n Hn. apply Zgcd_1_rel_prime.
  specialize (H2 (Z.to_nat n)). rewrite Z2Nat.id in H2 by lia. apply Z.eqb_eq, H2, in_seq. lia.
Qed.
Definition F7 : fld := Zp 7 (prime_check_sound 7 eq_refl).
Definition F13 : fld := Zp 13 (prime_check_sound 13 eq_refl).
Definition F17 : fld := Zp 17 (prime_check_sound 17 eq_refl).
Definition F97 : fld := Zp 97 (prime_check_sound 97 eq_refl).
