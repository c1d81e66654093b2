(** The square-root algorithms over Z/p with the generated constants. *)
From Coq Require Import ZArith Znumtheory Zpow_facts List Bool Arith Lia Ring Field Field_theory.
From Verif Require Import Field Zp BigIntModel BigIntSpec PolySpec PolyProof PolyProof3 MixedModel MixedProof DomainProof SemigroupModel SqrtModel SqrtSpec SqrtProof.
Import ListNotations.

Section P.
  Variable p : Z.
  Hypothesis Hp : prime p.
  Hypothesis Hodd : (2 < p)%Z.
  Let F : fld := Zp p Hp.
  Add Field Ksq2 : (fld_theory F).
  Open Scope fld_scope.

  Lemma zpow_val (x : F) n : zval p (x ^ n) = (zval p x ^ Z.of_nat n mod p)%Z.
  Proof.
    induction n; [reflexivity|].
    cbn [fpow]. change (zval p (x * x ^ n)) with ((zval p x * zval p (fpow x n)) mod p)%Z.
    rewrite IHn, Z.mul_mod_idemp_r by lia. f_equal. rewrite Nat2Z.inj_succ, Z.pow_succ_r by lia. reflexivity.
  Qed.
  Lemma zval_0 : zval p (0 : F) = 0%Z. Proof. change (0 mod p = 0)%Z. apply Z.mod_0_l. lia. Qed.
  Lemma zval_1 : zval p (1 : F) = 1%Z. Proof. change (1 mod p = 1)%Z. apply Z.mod_small. lia. Qed.
  Lemma zval_nz (x : F) : x <> 0 -> (0 < zval p x < p)%Z.
  Proof.
    intros Hx. pose proof (zval_range p x). assert (zval p x <> 0%Z); [|lia]. intros E. apply Hx. apply zp_eq. rewrite zval_0. exact E.
  Qed.
  Lemma zfermat (x : F) : x <> 0 -> x ^ Z.to_nat (p - 1) = 1.
  Proof.
    intros Hx. apply zp_eq. rewrite zpow_val, zval_1, Z2Nat.id by lia. apply (fermat p Hp). apply zval_nz. exact Hx.
  Qed.
  Lemma m1_neq : (1 : F) <> - (1).
  Proof.
    intros E. apply (f_equal (zval p)) in E. rewrite zval_1 in E. change (1 = (- zval p (f1 : F)) mod p)%Z in E. rewrite zval_1 in E.
    replace (Z.opp 1) with (p - 1 + (-1) * p)%Z in E by lia. rewrite Z.mod_add, Z.mod_small in E by lia. lia.
  Qed.
  Lemma p_odd : Z.odd p = true.
  Proof.
    destruct (Z.odd p) eqn:E; [reflexivity|]. exfalso. rewrite <- Z.negb_even in E. apply negb_false_iff, Z.even_spec in E. destruct E as [k Ek].
    assert (D : (2 | p)%Z) by (exists k; lia). destruct (prime_divisors p Hp 2 D) as [H|[H|[H|H]]]; lia.
  Qed.

  (** p - 1 = 2^s (2T + 1). *)
  Lemma decomp : exists T : nat, (0 < Z.to_nat (gen_two_adicity p))%nat /\
    Z.to_nat (p - 1) = (2 ^ Z.to_nat (gen_two_adicity p) * (2 * T + 1))%nat /\ (0 <= gen_two_adicity p)%Z /\
    (T <> 0%nat -> compute_trace 2 (p - 1) = Z.of_nat (2 * T + 1)) /\ (T = 0%nat -> compute_trace 2 (p - 1) = 0%Z).
  Proof.
    unfold gen_two_adicity. destruct (adicity_spec 2 (p - 1) ltac:(lia) ltac:(lia)) as (t & H0 & E & Hm & Htr).
    set (s := compute_adicity 2 (p - 1)) in *.
    assert (0 < 2 ^ s)%Z by (apply Z.pow_pos_nonneg; lia).
    assert (0 < t)%Z by nia.
    assert (Ht : t = (2 * ((t - 1) / 2) + 1)%Z).
    { assert (t mod 2 = 1)%Z by (pose proof (Z.mod_pos_bound t 2 ltac:(lia)); lia).
      pose proof (Z.div_mod t 2 ltac:(lia)). replace (t - 1)%Z with (0 + (t / 2) * 2)%Z by lia. rewrite Z.div_add by lia. rewrite Z.div_0_l by lia. lia. }
    exists (Z.to_nat ((t - 1) / 2)). assert (0 <= (t - 1) / 2)%Z by (apply Z.div_pos; lia).
    assert (Et : Z.of_nat (2 * Z.to_nat ((t - 1) / 2) + 1) = t) by lia.
    split; [|split; [|split; [exact H0|split]]].
    - assert (s <> 0%Z); [|lia]. intros Es. rewrite Es, Z.pow_0_r in E. pose proof p_odd as O. replace p with (2 * ((t - 1) / 2 + 1))%Z in O by lia.
      rewrite Z.odd_mul in O. discriminate.
    - apply Nat2Z.inj. rewrite Z2Nat.id by lia. rewrite Nat2Z.inj_mul, Et, Nat2Z.inj_pow, Z2Nat.id by lia. exact E.
    - intros NT. rewrite Htr, Et. destruct (Z.eqb_spec t 1); [|reflexivity]. subst t. exfalso. apply NT. reflexivity.
    - intros T0. rewrite Htr. destruct (Z.eqb_spec t 1); [reflexivity|]. lia.
  Qed.
  Lemma fermat_T T : Z.to_nat (p - 1) = (2 ^ Z.to_nat (gen_two_adicity p) * (2 * T + 1))%nat -> forall y : F, y <> 0 -> y ^ (2 ^ Z.to_nat (gen_two_adicity p) * (2 * T + 1)) = 1.
  Proof. intros E y Hy. rewrite <- E. apply zfermat. exact Hy. Qed.

  (** The non-zero elements. *)
  Definition units : list F := map (fun i => mkz p Hp (Z.of_nat i) : F) (seq 1 (Z.to_nat (p - 1))).
  Lemma units_nodup : NoDup units.
  Proof.
    unfold units. assert (G : forall l, NoDup l -> (forall i, In i l -> (0 < i < Z.to_nat p)%nat) -> NoDup (map (fun i => mkz p Hp (Z.of_nat i) : F) l)).
    { induction l as [|i l IH]; intros HN HI; cbn [map]; constructor.
      - intros H. apply in_map_iff in H as (j & E & Hj). apply (f_equal (zval p)) in E. cbv beta in E. rewrite !zval_mkz in E.
        inversion HN; subst. pose proof (HI i (or_introl eq_refl)). pose proof (HI j (or_intror Hj)).
        rewrite !Z.mod_small in E by lia. apply Nat2Z.inj in E. subst. contradiction.
      - inversion HN; subst. apply IH; [assumption|]. intros; apply HI; right; assumption. }
    apply G; [apply seq_NoDup|]. intros i Hi. apply in_seq in Hi. lia.
  Qed.
  Lemma units_nz x : In x units -> x <> 0.
  Proof.
    unfold units. intros H. apply in_map_iff in H as (i & <- & Hi). apply in_seq in Hi. intros E. apply (f_equal (zval p)) in E.
    rewrite zval_0, zval_mkz in E. rewrite Z.mod_small in E by lia. lia.
  Qed.
  Lemma half_split m (y : F) : Z.to_nat (p - 1) = (2 * m)%nat -> y <> 0 -> y ^ m = 1 \/ y ^ m = - (1).
  Proof. intros E Hy. apply sq_one. rewrite <- fpow_add. replace (m + m)%nat with (Z.to_nat (p - 1)) by lia. apply zfermat. exact Hy. Qed.
  Lemma nonresidue m : Z.to_nat (p - 1) = (2 * m)%nat -> exists c : F, c <> 0 /\ c ^ m = - (1).
  Proof.
    intros E. destruct (Exists_dec (fun c : F => c ^ m <> 1) units) as [X|X].
    { intros x. destruct (f_dec F (x ^ m) 1); [right; tauto|left; assumption]. }
    - apply Exists_exists in X as (c & Hc & N). exists c. pose proof (units_nz c Hc) as Nz. split; [exact Nz|].
      destruct (half_split m c E Nz); [contradiction|assumption].
    - exfalso. set (l := - (1) :: repeat (0 : F) (m - 1) ++ [1]).
      assert (M : (0 < m)%nat) by lia.
      assert (Z : coeff l m = 0).
      { apply (roots_bound F units l units_nodup).
        - unfold l, units. rewrite map_length, seq_length. cbn [length]. rewrite app_length, repeat_length. cbn [length]. lia.
        - intros x Hx. unfold l. rewrite eval_cons, eval_app, eval_zeros, repeat_length, eval_cons, eval_nil.
          assert (x ^ m = 1). { destruct (f_dec F (x ^ m) 1); [assumption|]. exfalso. apply X. apply Exists_exists. exists x. auto. }
          replace m with (S (m - 1)) in H by lia. cbn [fpow] in H. transitivity (x * x ^ (m - 1) - 1); [ring|]. rewrite H. ring. }
      assert (C : coeff (- (1) :: repeat (0 : F) (m - 1) ++ [1]) m = 1).
      { clear - M. unfold coeff. destruct m as [|m]; [lia|]. cbn [nth]. replace (S m - 1)%nat with m by lia. rewrite app_nth2 by (rewrite repeat_length; lia).
        rewrite repeat_length, Nat.sub_diag. reflexivity. }
      fold l in C. rewrite C in Z. apply (f1_neq_0 F). exact Z.
  Qed.

  Lemma half_eq T : (0 < Z.to_nat (gen_two_adicity p))%nat -> Z.to_nat (p - 1) = (2 ^ Z.to_nat (gen_two_adicity p) * (2 * T + 1))%nat ->
    Z.to_nat (p - 1) = (2 * (2 ^ (Z.to_nat (gen_two_adicity p) - 1) * (2 * T + 1)))%nat.
  Proof. intros H0 E. rewrite E. replace (Z.to_nat (gen_two_adicity p)) with (S (Z.to_nat (gen_two_adicity p) - 1)) at 1 by lia. rewrite pow2_S. lia. Qed.
  Lemma half_val m : Z.to_nat (p - 1) = (2 * m)%nat -> Z.to_nat (gen_modulus_minus_one_div_two p) = m.
  Proof.
    intros E. unfold gen_modulus_minus_one_div_two. rewrite Z.quot_div_nonneg by lia. replace (p - 1)%Z with (0 + Z.of_nat m * 2)%Z by lia.
    rewrite Z.div_add, Z.div_0_l by lia. lia.
  Qed.
  Lemma euler_p m (a : F) : Z.to_nat (p - 1) = (2 * m)%nat -> a <> 0 -> a ^ m = 1 <-> is_square a.
  Proof.
    intros E Ha. destruct decomp as (T & S0 & ET & _). set (s := Z.to_nat (gen_two_adicity p)) in *.
    pose proof (half_eq T S0 ET) as EH. assert (Em : m = (2 ^ (s - 1) * (2 * T + 1))%nat) by (fold s in EH; lia).
    destruct (nonresidue m E) as (c & Hc & Ec). rewrite Em.
    apply (euler F s a T (fermat_T T ET) S0 (c ^ (2 * T + 1))); [|exact Ha].
    rewrite <- fpow_mul, Nat.mul_comm, <- Em. exact Ec.
  Qed.

  Lemma legendre_spec n e (a : F) : limbs64 n e -> val64 e = gen_modulus_minus_one_div_two p ->
    (legendre e a = 0%Z <-> a = 0) /\ (legendre e a = 1%Z <-> a <> 0 /\ is_square a) /\ (legendre e a = (-1)%Z <-> ~ is_square a).
  Proof.
    intros He Ve. unfold legendre. rewrite (pow_limbs F n) by exact He. rewrite Ve.
    destruct decomp as (T & S0 & ET & _). pose proof (half_eq T S0 ET) as EH. set (m := (2 ^ (Z.to_nat (gen_two_adicity p) - 1) * (2 * T + 1))%nat) in *.
    rewrite (half_val m EH). assert (M : (0 < m)%nat) by lia.
    destruct (f_dec F a 0) as [-> | Ha].
    - rewrite (fpow_0 F) by exact M. rewrite feqb_refl. assert (is_square (0 : F)) by (exists 0; ring).
      repeat split; intros; try lia; try tauto. 
    - assert (a ^ m <> 0) by (apply fpow_neq0; exact Ha). rewrite neqb by assumption. pose proof (euler_p m a EH Ha) as EU.
      destruct (feqb (a ^ m) 1) eqn:E1.
      + apply feqb_eq in E1. apply EU in E1. repeat split; intros; try lia; tauto.
      + assert (a ^ m <> 1) by (intros X; rewrite X, feqb_refl in E1; discriminate).
        assert (~ is_square a) by tauto. repeat split; intros; try lia; tauto.
  Qed.
  Lemma legendre_mul n e (a b : F) : limbs64 n e -> val64 e = gen_modulus_minus_one_div_two p ->
    legendre e (a * b) = (legendre e a * legendre e b)%Z.
  Proof.
    intros He Ve. unfold legendre. rewrite !(pow_limbs F n) by exact He. rewrite Ve.
    destruct decomp as (T & S0 & ET & _). pose proof (half_eq T S0 ET) as EH. set (m := (2 ^ (Z.to_nat (gen_two_adicity p) - 1) * (2 * T + 1))%nat) in *.
    rewrite (half_val m EH). assert (M : (0 < m)%nat) by lia. rewrite fpow_mul_base.
    assert (N1 : (1 : F) <> 0) by apply f1_neq_0. assert (N2 : - (1 : F) <> 0). { intros E. apply N1. transitivity (- (- (1)) : F); [ring|]. rewrite E. ring. }
    pose proof m1_neq as N3.
    assert (V : forall y : F, y ^ m = 0 \/ y ^ m = 1 \/ y ^ m = - (1)).
    { intros y. destruct (f_dec F y 0) as [-> | Hy]; [left; apply fpow_0; exact M|right; apply half_split; assumption]. }
    destruct (V a) as [-> | [-> | ->]]; destruct (V b) as [-> | [-> | ->]];
      repeat match goal with |- context [feqb ?x ?y] => first [replace x with (0 : F) by ring | replace x with (1 : F) by ring | replace x with (- (1) : F) by ring] end;
      rewrite ?feqb_refl, ?(neqb F 1 0 N1), ?(neqb F (- (1)) 0 N2), ?(neqb F (- (1)) 1 (not_eq_sym N3)); reflexivity.
  Qed.

  Lemma shanks_spec n e (a : F) : limbs64 n e -> val64 e = gen_modulus_plus_one_div_four p -> (p mod 4 = 3)%Z ->
    match shanks e a with Some x => x * x = a | None => ~ is_square a end.
  Proof.
    intros He Ve H4. unfold shanks. rewrite (pow_limbs F n) by exact He. rewrite Ve. unfold gen_modulus_plus_one_div_four.
    rewrite Z.quot_div_nonneg by lia. set (k := Z.to_nat ((p + 1) / 4)).
    assert (Ek : Z.to_nat (p - 1) = (4 * k - 2)%nat /\ (0 < k)%nat).
    { unfold k. pose proof (Z.div_mod p 4 ltac:(lia)) as D. rewrite H4 in D. replace (p + 1)%Z with ((p / 4 + 1) * 4)%Z by lia. rewrite Z.div_mul by lia. lia. }
    destruct Ek as [Ek K0]. destruct (feqb (a ^ k * a ^ k) a) eqn:E; [apply feqb_eq in E; exact E|].
    intros [y Ey]. assert (a ^ k * a ^ k = a); [|rewrite H, feqb_refl in E; discriminate].
    rewrite <- Ey at 1 2. rewrite <- (fpow_2 F y), <- !fpow_mul, <- fpow_add. replace (2 * k + 2 * k)%nat with (Z.to_nat (p - 1) + 2)%nat by lia.
    rewrite fpow_add, (fpow_2 F y), Ey. destruct (f_dec F a 0) as [-> | Ha]; [ring|].
    rewrite zfermat; [ring|]. intros ->. apply Ha. rewrite <- Ey. ring.
  Qed.

  Definition two_adic_root (g : Z) : F := mkz p Hp (gen_two_adic_root p g).
  Lemma root_val T g : compute_trace 2 (p - 1) = Z.of_nat (2 * T + 1) -> two_adic_root g = (mkz p Hp g : F) ^ (2 * T + 1).
  Proof.
    intros E. apply zp_eq. rewrite zpow_val. unfold two_adic_root, gen_two_adic_root. rewrite !zval_mkz, E. rewrite Z.mod_mod by lia.
    rewrite Zpower_mod by lia. reflexivity.
  Qed.
  Lemma not_fermat_trace T : ~ fermat_number p -> Z.to_nat (p - 1) = (2 ^ Z.to_nat (gen_two_adicity p) * (2 * T + 1))%nat -> (0 <= gen_two_adicity p)%Z -> T <> 0%nat.
  Proof.
    intros NF E G0 ->. apply NF. exists (gen_two_adicity p). split; [exact G0|]. rewrite Nat.mul_0_r, Nat.add_0_l, Nat.mul_1_r in E.
    apply (f_equal Z.of_nat) in E. rewrite Z2Nat.id in E by lia. rewrite Nat2Z.inj_pow, Z2Nat.id in E by lia. change (Z.of_nat 2) with 2%Z in E. lia.
  Qed.
  Lemma tonelli_gen n e g fuel (a : F) : ~ fermat_number p -> limbs64 n e -> val64 e = gen_trace_minus_one_div_two p ->
    ~ is_square (mkz p Hp g : F) -> (gen_two_adicity p <= Z.of_nat fuel)%Z ->
    exists r, tonelli_shanks fuel (Z.to_nat (gen_two_adicity p)) e (two_adic_root g) a = Some r /\ match r with Some x => x * x = a | None => ~ is_square a end.
  Proof.
    intros NF He Ve Hg Hf. destruct decomp as (T & S0 & ET & G0 & HT & _). pose proof (not_fermat_trace T NF ET G0) as NT. specialize (HT NT).
    pose proof (half_eq T S0 ET) as EH.
    apply (tonelli_spec F _ a T (fermat_T T ET) S0 n); [exact He| | |lia].
    - rewrite Ve. unfold gen_trace_minus_one_div_two. rewrite HT. rewrite Z.quot_div_nonneg by lia. replace (Z.of_nat (2 * T + 1) - 1)%Z with (0 + Z.of_nat T * 2)%Z by lia.
      rewrite Z.div_add, Z.div_0_l by lia. lia.
    - rewrite (root_val T) by exact HT. rewrite <- fpow_mul, Nat.mul_comm.
      assert (Ng : (mkz p Hp g : F) <> 0). { intros E. apply Hg. exists 0. rewrite E. ring. }
      destruct (half_split _ (mkz p Hp g : F) EH Ng) as [X|X]; [|exact X]. exfalso. apply Hg. apply (euler_p _ _ EH Ng). exact X.
  Qed.
  (** Before Init() the root is 0. *)
  Lemma tonelli_uninit n e fuel (a : F) : ~ fermat_number p -> limbs64 n e -> val64 e = gen_trace_minus_one_div_two p ->
    is_square a -> a <> 0 -> a ^ Z.to_nat (compute_trace 2 (p - 1)) <> 1 ->
    tonelli_shanks fuel (Z.to_nat (gen_two_adicity p)) e 0 a = None.
  Proof.
    intros NF He Ve HS Ha Nb. destruct decomp as (T & S0 & ET & G0 & HT & _). pose proof (not_fermat_trace T NF ET G0) as NT. specialize (HT NT).
    rewrite HT, Nat2Z.id in Nb. apply (tonelli_stuck F _ a T (fermat_T T ET) S0 n); auto.
    rewrite Ve. unfold gen_trace_minus_one_div_two. rewrite HT. rewrite Z.quot_div_nonneg by lia. replace (Z.of_nat (2 * T + 1) - 1)%Z with (0 + Z.of_nat T * 2)%Z by lia.
    rewrite Z.div_add, Z.div_0_l by lia. lia.
  Qed.
  (** For p = 2^k + 1 the generated trace is 0 and the root is 1. *)
  Lemma tonelli_fermat n e g fuel (a : F) : fermat_number p -> limbs64 n e -> val64 e = gen_trace_minus_one_div_two p ->
    is_square a -> a <> 0 -> a <> 1 ->
    gen_two_adic_root p g = 1%Z /\ tonelli_shanks fuel (Z.to_nat (gen_two_adicity p)) e (two_adic_root g) a = None.
  Proof.
    intros (k & K0 & Ek) He Ve HS Ha N1. destruct decomp as (T & S0 & ET & G0 & _ & HT).
    assert (T0 : T = 0%nat).
    { apply (f_equal Z.of_nat) in ET. rewrite Z2Nat.id in ET by lia. rewrite Nat2Z.inj_mul, Nat2Z.inj_pow, Z2Nat.id in ET by lia.
      assert (0 < k)%Z by (destruct (Z.eq_dec k 0); [subst k; cbn in Ek; lia|lia]).
      assert (gen_two_adicity p = k).
      { change (Z.of_nat 2) with 2%Z in ET. apply (adicity_unique 2 _ (Z.of_nat (2 * T + 1)) k 1).
        1-4: lia.
        - replace (Z.of_nat (2 * T + 1)) with (1 + Z.of_nat T * 2)%Z by lia. rewrite Z.mod_add by lia. discriminate.
        - discriminate. }
      subst k. change (Z.of_nat 2) with 2%Z in ET. assert (0 < 2 ^ gen_two_adicity p)%Z by (apply Z.pow_pos_nonneg; lia). nia. }
    specialize (HT T0). assert (ER : gen_two_adic_root p g = 1%Z). { unfold gen_two_adic_root. rewrite HT, Z.pow_0_r. apply Z.mod_small. lia. }
    split; [exact ER|]. apply (tonelli_stuck F _ a T (fermat_T T ET) S0 n); auto.
    - rewrite Ve. unfold gen_trace_minus_one_div_two. rewrite HT, T0. reflexivity.
    - right. unfold two_adic_root. rewrite ER. reflexivity.
    - rewrite T0. rewrite fpow_1. exact N1.
  Qed.
End P.
