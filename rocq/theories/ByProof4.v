(** The rounds of the inverter. *)
From Coq Require Import ZArith List Bool Lia Znumtheory.
From Verif Require Import ByModel BySpec ByProof ByProof2 ByProof3 ByProofT ByProofT2.
Import ListNotations.
Open Scope Z_scope.

Lemma lin_bound a b x y c B : Z.abs a + Z.abs b <= c -> Z.abs x <= B -> Z.abs y <= B -> Z.abs (x * a + y * b) <= c * B.
Proof.
  intros H Hx Hy. pose proof (Z.abs_triangle (x * a) (y * b)) as T. rewrite !Z.abs_mul in T.
  assert (Z.abs x * Z.abs a <= B * Z.abs a) by (apply Z.mul_le_mono_nonneg_r; lia).
  assert (Z.abs y * Z.abs b <= B * Z.abs b) by (apply Z.mul_le_mono_nonneg_r; lia).
  assert ((Z.abs a + Z.abs b) * B <= c * B) by (apply Z.mul_le_mono_nonneg_r; lia). lia.
Qed.
Lemma odd_coprime_pow M k : Z.odd M = true -> 0 <= k -> Z.gcd M (2 ^ k) = 1.
Proof.
  intros Ho Hk. apply Zgcd_1_rel_prime. apply rel_prime_sym. pattern k. apply natlike_ind; [| | exact Hk].
  - apply rel_prime_1.
  - intros x Hx IH. rewrite Z.pow_succ_r by exact Hx. apply rel_prime_sym. apply rel_prime_mult; apply rel_prime_sym; [| exact IH].
    apply prime_rel_prime; [exact prime_2 |]. intros D. exact (odd_div2 M Ho D).
Qed.
Lemma odd_gauss c k x : Z.odd c = true -> 0 <= k -> (c | 2 ^ k * x) -> (c | x).
Proof. intros Ho Hk H. apply (Z.gauss c (2 ^ k) x H). apply odd_coprime_pow; assumption. Qed.

Section Rounds.
Variable m : nat.
Notation n := (S m).
Variables B M X A : Z.
Hypothesis HB : 2 ^ 63 * B <= 2 ^ (62 * Z.of_nat (S m) - 1).
Hypothesis HM : 0 < M <= B.
Variable C : Z.
Hypothesis HC : 0 <= C.
Hypothesis HBC : 2 * B < 2 ^ (C + 1).
Hypothesis HCs : C + 62 < 2 ^ 62.
Hypothesis HX : 0 <= X <= B.
Hypothesis HA : 0 <= A < M.
Hypothesis Modd : Z.odd M = true.
Variable lm : list Z.
Hypothesis Rm : represents n lm M.
Variable inv62 : Z.
Hypothesis Hinv : (M * inv62) mod 2 ^ 62 = 1.

Lemma representable_le z : Z.abs z < 2 ^ 63 * B -> representable n z.
Proof. intros H. unfold representable. lia. Qed.

Lemma fg_row f g F G a b q : represents n f F -> represents n g G -> Z.abs F <= B -> Z.abs G <= B ->
  Z.abs a + Z.abs b <= 2 ^ 62 -> a * F + b * G = 2 ^ 62 * q ->
  represents n (c_shift (c_add (c_mul f a) (c_mul g b))) q /\ Z.abs q <= B.
Proof.
  intros Rf Rg HF HG Hab E. pose proof (lin_bound a b F G (2 ^ 62) B Hab HF HG) as Bd.
  assert (Eq : F * a + G * b = 2 ^ 62 * q) by lia. rewrite Eq in Bd.
  assert (Hq : Z.abs q <= B) by (rewrite Z.abs_mul in Bd; change (Z.abs (2 ^ 62)) with (2 ^ 62) in Bd; lia).
  split; [| exact Hq]. replace q with ((F * a + G * b) / 2 ^ 62) by (rewrite Eq, Z.mul_comm; apply Z.div_mul; lia).
  apply rep_shift.
  - apply rep_add; apply rep_mul; try assumption; lia.
  - apply representable_le. rewrite Eq. lia.
Qed.
Lemma land_u64_mask z : Z.land (u64 z) MASK = z mod 2 ^ 62.
Proof. rewrite land_mask. unfold u64. symmetry. apply Zmod_div_mod; [lia | lia | exists 4; reflexivity]. Qed.
Lemma neg_adj D : - 2 * M < D < M -> Z.abs (D + M * Z.b2z (D <? 0)) <= M - 1.
Proof. intros H. destruct (Z.ltb_spec D 0); cbn [Z.b2z]; lia. Qed.
Lemma de_row_ok d e D E a b : represents n d D -> represents n e E -> - 2 * M < D < M -> - 2 * M < E < M ->
  Z.abs a + Z.abs b <= 2 ^ 62 ->
  exists q k, represents n (de_row lm inv62 d e a b) q /\ - 2 * M < q < M /\ 2 ^ 62 * q = a * D + b * E + M * k.
Proof.
  intros Rd Re HD HE Hab.
  assert (Small : forall D, - 2 * M < D < M -> representable n D) by (intros; apply representable_le; lia).
  unfold de_row. cbv zeta. rewrite (rep_negative m d D Rd), (rep_negative m e E Re) by (apply Small; assumption).
  rewrite (rep_lowest n d D), (rep_lowest n e E) by (lia || assumption).
  set (md0 := a * Z.b2z (D <? 0) + b * Z.b2z (E <? 0)).
  assert (Hmd0 : Z.abs md0 <= 2 ^ 62) by (unfold md0; destruct (D <? 0), (E <? 0); cbn [Z.b2z]; lia).
  rewrite (i64_small md0) by lia. rewrite !land_u64_mask.
  set (cd := (a * (D mod 2 ^ 62) + b * (E mod 2 ^ 62)) mod 2 ^ 62).
  assert (Ecd : cd = (a * D + b * E) mod 2 ^ 62).
  { unfold cd. rewrite Z.add_mod, Z.mul_mod_idemp_r, (Z.mul_mod_idemp_r b), <- Z.add_mod by lia. reflexivity. }
  set (r := (cd * inv62 + md0) mod 2 ^ 62). pose proof (mod62 (cd * inv62 + md0)) as Hr. fold r in Hr.
  rewrite i64_small by lia. set (S0 := D * a + E * b + M * (md0 - r)).
  assert (Dv : (2 ^ 62 | S0)).
  { apply Z.mod_divide; [lia |]. unfold S0.
    assert (E1 : (M * r) mod 2 ^ 62 = (cd + M * md0) mod 2 ^ 62).
    { unfold r. rewrite Z.mul_mod_idemp_r by lia. replace (M * (cd * inv62 + md0)) with (cd * (M * inv62) + M * md0) by ring.
      rewrite Z.add_mod, Z.mul_mod, Hinv, Z.mul_1_r, !Z.mod_mod, <- Z.add_mod by lia. reflexivity. }
    replace (D * a + E * b + M * (md0 - r)) with (a * D + b * E + M * md0 - M * r) by ring.
    rewrite Zminus_mod, E1, <- Zminus_mod, Ecd.
    replace (a * D + b * E + M * md0 - ((a * D + b * E) mod 2 ^ 62 + M * md0)) with (a * D + b * E - (a * D + b * E) mod 2 ^ 62) by ring.
    rewrite Zminus_mod_idemp_r, Z.sub_diag. reflexivity. }
  destruct Dv as [q Eq]. exists q, (md0 - r).
  assert (Bq : - 2 * M < q < M).
  { pose proof (lin_bound a b _ _ (2 ^ 62) (M - 1) Hab (neg_adj D HD) (neg_adj E HE)) as L.
    assert (ES : S0 = (D + M * Z.b2z (D <? 0)) * a + (E + M * Z.b2z (E <? 0)) * b - M * r) by (unfold S0, md0; ring).
    set (lin := (D + M * Z.b2z (D <? 0)) * a + (E + M * Z.b2z (E <? 0)) * b) in *. clearbody lin.
    assert (0 <= M * r <= M * (2 ^ 62 - 1)) by nia. clear - L ES Eq H HM. lia. }
  split; [| split; [exact Bq | clear - Eq; unfold S0 in Eq; lia]].
  replace q with (S0 / 2 ^ 62) by (rewrite Eq; apply Z.div_mul; lia).
  apply rep_shift.
  - unfold S0. apply rep_add; [apply rep_add |]; apply rep_mul; try assumption; clear - Hab Hmd0 Hr; lia.
  - apply representable_le. rewrite Eq. clear - Bq HM. lia.
Qed.

Record rinv (f g d e : list Z) (F G D E : Z) : Prop := mkr {
  r_f : represents n f F; r_g : represents n g G; r_d : represents n d D; r_e : represents n e E;
  r_F : Z.abs F <= B; r_G : Z.abs G <= B; r_D : - 2 * M < D < M; r_E : - 2 * M < E < M;
  r_o : Z.odd F = true; r_c1 : (M | D * X - F * A); r_c2 : (M | E * X - G * A); r_gcd : Z.gcd F G = Z.gcd M X
}.
Lemma round_ok f g d e F G D E delta : rinv f g d e F G D E -> G <> 0 -> lim B C F G delta ->
  exists delta' t F' G' D' E', jump (lowest f) (lowest g) delta = Some (delta', t) /\
    rinv (fst (fg f g t)) (snd (fg f g t)) (fst (de lm inv62 d e t)) (snd (de lm inv62 d e t)) F' G' D' E' /\
    prog B C F G delta F' G' delta'.
Proof.
  intros [Rf Rg Rd Re HF HG HD HE Ho C1 C2 Gc] Hn Li.
  pose proof (lim_delta B C HC HBC F G delta Hn Li) as Hdl.
  rewrite (rep_lowest n f F), (rep_lowest n g G) by (lia || assumption).
  destruct (jump_ok F G delta Ho ltac:(lia)) as ((delta', [[[t00 t01] t10] t11]) & Ej & _ & (F' & EF & HoF) & (G' & EG) & Det & B0 & B1).
  destruct (fg_row f g F G t00 t01 F' Rf Rg HF HG B0 EF) as [Rf' HF'].
  destruct (fg_row f g F G t10 t11 G' Rf Rg HF HG B1 EG) as [Rg' HG'].
  destruct (de_row_ok d e D E t00 t01 Rd Re HD HE B0) as (D' & k0 & Rd' & HD' & ED).
  destruct (de_row_ok d e D E t10 t11 Rd Re HD HE B1) as (E' & k1 & Re' & HE' & EE).
  exists delta', (t00, t01, t10, t11), F', G', D', E'. split; [exact Ej |].
  assert (Pg : prog B C F G delta F' G' delta') by exact (jump_dec B C F G delta HC HBC _ Ho Hn Li HCs Ej F' G' EF EG).
  split; [| exact Pg]. cbn [fg de fst snd].
  assert (Cong : forall q Q a b k, 2 ^ 62 * q = a * D + b * E + M * k -> a * F + b * G = 2 ^ 62 * Q -> (M | q * X - Q * A)).
  { intros q Q a b k Eq EQ. apply (odd_gauss M 62); [exact Modd | lia |].
    replace (2 ^ 62 * (q * X - Q * A)) with ((2 ^ 62 * q) * X - (2 ^ 62 * Q) * A) by ring. rewrite Eq, <- EQ.
    replace (_ - _) with (a * (D * X - F * A) + b * (E * X - G * A) + M * (k * X)) by ring.
    repeat apply Z.divide_add_r; [apply Z.divide_mul_r; exact C1 | apply Z.divide_mul_r; exact C2 | apply Z.divide_factor_l]. }
  constructor; try assumption.
  - exact (Cong _ _ _ _ _ ED EF).
  - exact (Cong _ _ _ _ _ EE EG).
  - rewrite <- Gc. apply Z.divide_antisym_nonneg; [apply Z.gcd_nonneg | apply Z.gcd_nonneg | |].
    + assert (EF2 : F = t11 * F' - t01 * G').
      { apply (Z.mul_reg_l _ _ (2 ^ 62)); [lia |].
        replace (2 ^ 62 * (t11 * F' - t01 * G')) with (t11 * (2 ^ 62 * F') - t01 * (2 ^ 62 * G')) by ring. rewrite <- EF, <- EG, <- Det. ring. }
      assert (EG2 : G = t00 * G' - t10 * F').
      { apply (Z.mul_reg_l _ _ (2 ^ 62)); [lia |].
        replace (2 ^ 62 * (t00 * G' - t10 * F')) with (t00 * (2 ^ 62 * G') - t10 * (2 ^ 62 * F')) by ring. rewrite <- EF, <- EG, <- Det. ring. }
      pose proof (Z.gcd_divide_l F' G') as Dl. pose proof (Z.gcd_divide_r F' G') as Dr.
      apply Z.gcd_greatest; [rewrite EF2 | rewrite EG2]; apply Z.divide_sub_r; apply Z.divide_mul_r; assumption.
    + pose proof (Z.gcd_divide_l F G) as Dl. pose proof (Z.gcd_divide_r F G) as Dr.
      assert (Oc : Z.odd (Z.gcd F G) = true).
      { destruct Dl as [c Ec]. rewrite Ec, Z.odd_mul in Ho. apply andb_true_iff in Ho. apply Ho. }
      apply Z.gcd_greatest; apply (odd_gauss _ 62); try exact Oc; try lia; [rewrite <- EF | rewrite <- EG];
        apply Z.divide_add_r; apply Z.divide_mul_r; assumption.
Qed.
Lemma rep_bound z : Z.abs z <= B -> representable n z.
Proof. intros. apply representable_le. lia. Qed.
Lemma invert_loop_ok a fuel : forall f g d e F G D E delta, rinv f g d e F G D E -> lim B C F G delta ->
  match invert_loop fuel (mkinv lm a inv62) delta f g d e with
  | None => True
  | Some (f', d') => exists F' D', represents n f' F' /\ represents n d' D' /\ Z.abs F' <= B /\ - 2 * M < D' < M /\
      (M | D' * X - F' * A) /\ Z.abs F' = Z.gcd M X
  end.
Proof.
  induction fuel as [|fuel IH]; intros f g d e F G D E delta R Li; pose proof R as [Rf Rg Rd Re HF HG HD HE Ho C1 C2 Gc]; cbn [invert_loop].
  - destruct (c_eqb g (load_int 0 (length g))) eqn:Eg; [| exact Logic.I].
    replace (length g) with n in Eg by (symmetry; apply Rg).
    rewrite (rep_eqb m g _ G 0 Rg (load_int_nonneg 0 n ltac:(lia))) in Eg by (apply rep_bound; lia). apply Z.eqb_eq in Eg. subst G.
    rewrite Z.gcd_0_r in Gc. exists F, D. tauto.
  - destruct (c_eqb g (load_int 0 (length g))) eqn:Eg.
    + replace (length g) with n in Eg by (symmetry; apply Rg).
      rewrite (rep_eqb m g _ G 0 Rg (load_int_nonneg 0 n ltac:(lia))) in Eg by (apply rep_bound; lia). apply Z.eqb_eq in Eg. subst G.
      rewrite Z.gcd_0_r in Gc. exists F, D. tauto.
    + replace (length g) with n in Eg by (symmetry; apply Rg).
      rewrite (rep_eqb m g _ G 0 Rg (load_int_nonneg 0 n ltac:(lia))) in Eg by (apply rep_bound; lia). apply Z.eqb_neq in Eg.
      destruct (round_ok f g d e F G D E delta R Eg Li) as (delta' & t & F' & G' & D' & E' & -> & R' & Pg).
      cbn [modulus inverse62]. destruct (fg f g t) as [f1 g1]. destruct (de lm inv62 d e t) as [d1 e1].
      exact (IH _ _ _ _ _ _ _ _ delta' R' (proj2 Pg)).
Qed.
Lemma zero_eqb g G : represents n g G -> Z.abs G <= B -> c_eqb g (load_int 0 (length g)) = (G =? 0).
Proof.
  intros Rg HG. replace (length g) with n by (symmetry; apply Rg).
  apply (rep_eqb m g _ G 0 Rg (load_int_nonneg 0 n ltac:(lia))); apply rep_bound; lia.
Qed.
Lemma invert_loop_ends a : forall x1 x2 x3 x4, 0 <= x1 -> 0 <= x2 -> 0 <= x3 -> 0 <= x4 ->
  forall f g d e F G D E delta, x1 = m1 F G -> x2 = m2 F G -> x3 = m3 delta -> x4 = Z.abs G -> rinv f g d e F G D E -> lim B C F G delta ->
  exists k, forall fuel, (k <= fuel)%nat -> invert_loop fuel (mkinv lm a inv62) delta f g d e <> None.
Proof.
  apply (lex_ind (fun x1 x2 x3 x4 => forall f g d e F G D E delta, x1 = m1 F G -> x2 = m2 F G -> x3 = m3 delta -> x4 = Z.abs G ->
    rinv f g d e F G D E -> lim B C F G delta -> exists k, forall fuel, (k <= fuel)%nat -> invert_loop fuel (mkinv lm a inv62) delta f g d e <> None)).
  intros x1 x2 x3 x4 _ _ _ _ IH f g d e F G D E delta E1 E2 E3 E4 R Li.
  assert (Done : forall f g d e F D E delta, rinv f g d e F 0 D E -> forall fuel, invert_loop fuel (mkinv lm a inv62) delta f g d e <> None).
  { clear - HB HM HA HX Modd Rm Hinv HC HBC HCs. intros f g d e F D E delta R fuel. destruct R as [_ Rg _ _ _ HG]. destruct fuel; cbn [invert_loop]; rewrite (zero_eqb g 0 Rg HG); discriminate. }
  destruct (Z.eq_dec G 0) as [-> | Hn]; [exists 0%nat; intros; eapply Done; exact R |].
  destruct (round_ok f g d e F G D E delta R Hn Li) as (delta' & t & F' & G' & D' & E' & Ej & R' & Pg & Li').
  assert (Next : exists k, forall fuel, (k <= fuel)%nat ->
    invert_loop fuel (mkinv lm a inv62) delta' (fst (fg f g t)) (snd (fg f g t)) (fst (de lm inv62 d e t)) (snd (de lm inv62 d e t)) <> None).
  { destruct Pg as [-> | Lt]; [exists 0%nat; intros; eapply Done; exact R' |].
    refine (IH (m1 F' G') (m2 F' G') (m3 delta') (Z.abs G') _ _ _ _ _ _ _ _ _ F' G' D' E' delta' eq_refl eq_refl eq_refl eq_refl R' Li').
    - unfold m1. lia.
    - unfold m2. destruct (_ || _); lia.
    - unfold m3. lia.
    - lia.
    - subst. exact Lt. }
  destruct Next as [k Hk]. exists (S k). intros [|fuel] Hf; [lia |]. cbn [invert_loop]. destruct (c_eqb _ _); [discriminate |].
  rewrite Ej. cbn [modulus inverse62]. specialize (Hk fuel ltac:(lia)).
  destruct (fg f g t) as [f1 g1]. destruct (de lm inv62 d e t) as [d1 e1]. exact Hk.
Qed.
Lemma norm_ok d D ng : represents n d D -> - 2 * M < D < M ->
  exists R, represents n (norm lm d ng) R /\ 0 <= R < M /\ (M | R - (if ng then - D else D)).
Proof.
  intros Rd HD. assert (Small : forall D, - 2 * M < D < M -> representable n D) by (intros; apply representable_le; lia).
  unfold norm. cbv zeta. rewrite (rep_negative m d D Rd (Small _ HD)).
  assert (S1 : exists D1, represents n (if D <? 0 then c_add d lm else d) D1 /\ - M < D1 < M /\ (M | D1 - D)).
  { destruct (Z.ltb_spec D 0).
    - exists (D + M). split; [apply rep_add; assumption |]. split; [lia |]. exists 1. lia.
    - exists D. split; [exact Rd |]. split; [lia |]. exists 0. lia. }
  destruct S1 as (D1 & R1 & B1 & V1). set (l1 := if D <? 0 then _ else _) in *. clearbody l1.
  assert (S2 : exists D2, represents n (if ng then c_neg l1 else l1) D2 /\ - M < D2 < M /\ (M | D2 - (if ng then - D else D))).
  { destruct ng.
    - exists (- D1). split; [apply rep_neg; exact R1 |]. split; [lia |]. replace (- D1 - - D) with (- (D1 - D)) by lia. apply Z.divide_opp_r. exact V1.
    - exists D1. auto. }
  destruct S2 as (D2 & R2 & B2 & V2). set (l2 := if ng then _ else _) in *. clearbody l2.
  rewrite (rep_negative m l2 D2 R2) by (apply Small; lia). destruct (Z.ltb_spec D2 0).
  - exists (D2 + M). split; [apply rep_add; assumption |]. split; [lia |].
    replace (D2 + M - (if ng then - D else D)) with ((D2 - (if ng then - D else D)) + M) by lia.
    apply Z.divide_add_r; [exact V2 | apply Z.divide_refl].
  - exists D2. split; [exact R2 |]. split; [lia | exact V2].
Qed.
End Rounds.

Lemma chunks_S N : exists m, chunks N = S m /\ (2 <= chunks N)%nat /\ 2 ^ 63 * 2 ^ (64 * Z.of_nat N) <= 2 ^ (62 * Z.of_nat (S m) - 1).
Proof.
  unfold chunks. pose proof (Nat.div_mod (64 * (N + 1) + 61) 62 ltac:(lia)) as E.
  pose proof (Nat.mod_upper_bound (64 * (N + 1) + 61) 62 ltac:(lia)) as H. set (q := ((64 * (N + 1) + 61) / 62)%nat) in *. clearbody q.
  destruct q as [|m]; [lia |]. exists m. split; [reflexivity |]. split; [lia |].
  rewrite <- Z.pow_add_r by lia. apply pow_le. lia.
Qed.
Lemma digits64_bound l : in_base 64 l -> 0 <= digits 64 l < 2 ^ (64 * Z.of_nat (length l)).
Proof.
  induction l as [|x r IH]; intros H; [cbn; lia |]. inversion_clear H. specialize (IH H1). rewrite digits_cons. cbn [length].
  replace (64 * Z.of_nat (S (length r))) with (64 + 64 * Z.of_nat (length r)) by lia. rewrite Z.pow_add_r by lia. nia.
Qed.
Lemma odd_low l : in_base 64 l -> Z.odd (digits 64 l) = Z.odd (nth 0 l 0) /\
  forall z, (digits 64 l * z) mod 2 ^ 62 = (nth 0 l 0 * z) mod 2 ^ 62.
Proof.
  intros _. destruct l as [|x r]; [split; reflexivity |]. rewrite digits_cons. cbn [nth]. split.
  - rewrite Z.odd_add, Z.odd_mul. change (Z.odd (2 ^ 64)) with false. cbn [andb]. apply xorb_false_r.
  - intros z. replace ((x + 2 ^ 64 * digits 64 r) * z) with (x * z + (4 * digits 64 r * z) * 2 ^ 62) by ring. apply Z.mod_add. lia.
Qed.
Lemma invert_ok N mm a x fuel :
  length mm = N -> length a = N -> length x = N -> in_base 64 mm -> in_base 64 a -> in_base 64 x ->
  Z.odd (digits 64 mm) = true -> digits 64 a < digits 64 mm -> Z.of_nat N < 2 ^ 55 ->
  match invert fuel N (make N mm a) x with
  | None => True
  | Some None => Z.gcd (digits 64 x) (digits 64 mm) <> 1
  | Some (Some r) => Z.gcd (digits 64 x) (digits 64 mm) = 1 /\ length r = N /\ in_base 64 r /\ digits 64 r < digits 64 mm /\
      (digits 64 r * digits 64 x) mod digits 64 mm = digits 64 a
  end.
Proof.
  intros Lm La Lx Im Ia Ix Ho Hlt HN. destruct (chunks_S N) as (m & Ec & H2 & HB).
  pose proof (digits64_bound mm Im) as Bm. pose proof (digits64_bound a Ia) as Ba. pose proof (digits64_bound x Ix) as Bx.
  rewrite Lm in Bm. rewrite La in Ba. rewrite Lx in Bx. remember (2 ^ (64 * Z.of_nat N)) as B eqn:EB.
  destruct (odd_low mm Im) as [Ol Ml].
  destruct (invert62_ok (nth 0 mm 0)) as [Hi _]; [congruence |]. rewrite <- Ml in Hi.
  unfold invert, make. cbn [modulus adjuster]. rewrite Ec in *.
  pose proof (load_ok mm (S m) Im) as Rm. pose proof (load_ok a (S m) Ia) as Ra. pose proof (load_ok x (S m) Ix) as Rx.
  set (M := digits 64 mm) in *. set (A := digits 64 a) in *. set (X := digits 64 x) in *. clearbody M A X.
  assert (HM : 0 < M <= B) by lia. assert (HX : 0 <= X <= B) by lia. assert (HA : 0 <= A < M) by lia.
  assert (R0 : rinv m B M X A (load mm (S m)) (load x (S m)) (load_int 0 (S m)) (load a (S m)) M X 0 A).
  { constructor; try assumption; try lia.
    - apply load_int_nonneg. lia.
    - replace (0 * X - M * A) with (M * - A) by ring. apply Z.divide_factor_l.
    - replace (A * X - X * A) with 0 by ring. apply Z.divide_0_r. }
  assert (HBC : 2 * B < 2 ^ (64 * Z.of_nat N + 1 + 1)).
  { rewrite !Z.pow_add_r by lia. rewrite <- EB. change (2 ^ 1) with 2. lia. }
  assert (Li : lim B (64 * Z.of_nat N + 1) M X 1) by (unfold lim; change (2 ^ Z.max 0 1) with 2; lia).
  pose proof (invert_loop_ok m B M X A HB HM (64 * Z.of_nat N + 1) ltac:(lia) HBC ltac:(lia) HX HA Ho (load mm (S m)) Rm (invert62 (nth 0 mm 0)) Hi (load a (S m)) fuel _ _ _ _ _ _ _ _ 1 R0 Li) as Hl.
  destruct (invert_loop _ _ _ _ _ _ _) as [[f d]|]; [| exact Logic.I].
  destruct Hl as (F & D & Rf & Rd & HF & HD & Cg & Gc).
  pose proof (rep_bound m B M HB HM (64 * Z.of_nat N + 1)) as RB.
  rewrite (rep_eqb m f _ F 1 Rf (load_int_nonneg 1 (S m) ltac:(lia))) by (apply RB; lia).
  rewrite (rep_eqb m f _ F (-1) Rf (load_int_minus (S m) H2)) by (apply RB; lia).
  rewrite Z.gcd_comm. destruct (Z.eqb_spec F 1) as [E1 | E1], (Z.eqb_spec F (-1)) as [E2 | E2]; cbn [orb]; try lia.
  all: match goal with |- context [norm _ _ ?ng] => destruct (norm_ok m B M HB HM (64 * Z.of_nat N + 1) ltac:(lia) (load mm (S m)) Rm d D ng Rd HD) as (R & RR & HR & VR) end.
  all: destruct (save_ok m _ R N RR) as (S1 & S2 & S3); [apply RB; lia | lia |].
  all: split; [lia |]; split; [exact S1 |]; split; [exact S2 |]; rewrite S3, <- EB, Z.mod_small by lia;
    split; [lia |].
  - symmetry. apply (Z.mod_unique_pos _ _ ((R * X - A) / M)); [exact HA |].
    assert (V : (M | R * X - A)).
    { replace (R * X - A) with ((R - D) * X + (D * X - F * A)) by (rewrite E1; ring).
      apply Z.divide_add_r; [apply Z.divide_mul_l; exact VR | exact Cg]. }
    destruct V as [k V]. rewrite V, Z.div_mul by lia. lia.
  - symmetry. apply (Z.mod_unique_pos _ _ ((R * X - A) / M)); [exact HA |].
    assert (V : (M | R * X - A)).
    { replace (R * X - A) with ((R - - D) * X - (D * X - F * A)) by (rewrite E2; ring).
      apply Z.divide_sub_r; [apply Z.divide_mul_l; exact VR | exact Cg]. }
    destruct V as [k V]. rewrite V, Z.div_mul by lia. lia.
Qed.
Lemma invert_ends N mm a x :
  length mm = N -> length a = N -> length x = N -> in_base 64 mm -> in_base 64 a -> in_base 64 x ->
  Z.odd (digits 64 mm) = true -> digits 64 a < digits 64 mm -> Z.of_nat N < 2 ^ 55 ->
  exists k, forall fuel, (k <= fuel)%nat -> invert fuel N (make N mm a) x <> None.
Proof.
  intros Lm La Lx Im Ia Ix Ho Hlt HN. destruct (chunks_S N) as (m & Ec & H2 & HB).
  pose proof (digits64_bound mm Im) as Bm. pose proof (digits64_bound a Ia) as Ba. pose proof (digits64_bound x Ix) as Bx.
  rewrite Lm in Bm. rewrite La in Ba. rewrite Lx in Bx. remember (2 ^ (64 * Z.of_nat N)) as B eqn:EB.
  destruct (odd_low mm Im) as [Ol Ml].
  destruct (invert62_ok (nth 0 mm 0)) as [Hi _]; [congruence |]. rewrite <- Ml in Hi.
  unfold invert, make. cbn [modulus adjuster]. rewrite Ec in *.
  pose proof (load_ok mm (S m) Im) as Rm. pose proof (load_ok a (S m) Ia) as Ra. pose proof (load_ok x (S m) Ix) as Rx.
  set (M := digits 64 mm) in *. set (A := digits 64 a) in *. set (X := digits 64 x) in *. clearbody M A X.
  assert (HM : 0 < M <= B) by lia. assert (HX : 0 <= X <= B) by lia. assert (HA : 0 <= A < M) by lia.
  assert (R0 : rinv m B M X A (load mm (S m)) (load x (S m)) (load_int 0 (S m)) (load a (S m)) M X 0 A).
  { constructor; try assumption; try lia.
    - apply load_int_nonneg. lia.
    - replace (0 * X - M * A) with (M * - A) by ring. apply Z.divide_factor_l.
    - replace (A * X - X * A) with 0 by ring. apply Z.divide_0_r. }
  assert (HBC : 2 * B < 2 ^ (64 * Z.of_nat N + 1 + 1)).
  { rewrite !Z.pow_add_r by lia. rewrite <- EB. change (2 ^ 1) with 2. lia. }
  assert (Li : lim B (64 * Z.of_nat N + 1) M X 1) by (unfold lim; change (2 ^ Z.max 0 1) with 2; lia).
  destruct (invert_loop_ends m B M X A HB HM (64 * Z.of_nat N + 1) ltac:(lia) HBC ltac:(lia) HA Ho (load mm (S m)) Rm (invert62 (nth 0 mm 0)) Hi (load a (S m))
    (m1 M X) (m2 M X) (m3 1) (Z.abs X)) with (f := load mm (S m)) (g := load x (S m)) (d := load_int 0 (S m)) (e := load a (S m))
    (F := M) (G := X) (D := 0) (E := A) (delta := 1) as [k Hk];
    [unfold m1; lia | unfold m2; destruct (_ || _); lia | unfold m3; lia | lia | reflexivity | reflexivity | reflexivity | reflexivity | exact R0 | exact Li |].
  exists k. intros fuel Hf. specialize (Hk fuel Hf). destruct (invert_loop _ _ _ _ _ _ _) as [[f d]|]; [| congruence].
  destruct (_ || _); discriminate.
Qed.
