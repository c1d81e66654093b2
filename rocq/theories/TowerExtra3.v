(** Generated multiplication code, exponentiation in the cyclotomic subgroup, the quartic Frobenius map,
    and the Frobenius coefficients of a quadratic Fp4 whose base non-residue is -1. *)
From Coq Require Import ZArith List Bool Arith Lia Znumtheory Ring Field Field_theory.
From Coq Require Import ZifyNat.
From Verif Require Import Field Zp BigIntModel BigIntSpec BigIntProof BigIntProof2 SemigroupModel SemigroupProof ExtFieldModel TowerModel ExtFieldSpec ExtFieldProof QuarticProof FrobProof ExtFieldExtra TowerProof TowerSpec TowerExtra TowerExtra2.
Import ListNotations.
Open Scope fld_scope.

(** the image of an integer in a field *)
Definition fint {K : fld} (z : Z) : K := if (z <? 0)%Z then - fnat (Z.to_nat (- z)) else fnat (Z.to_nat z).

Section Fast.
  Variable K : fld.
  Add Field Kfa : (fld_theory K).
  Let bitop (b : bool) : list fast_op := if b then [OpDouble; OpAddV] else [OpDouble].
  Lemma run_app ops1 ops2 (v ret : K) :
    fold_left (fun ret op => match op with OpDouble => ret + ret | OpAddV => ret + v | OpNegate => - ret end) (ops1 ++ ops2) ret =
    fold_left (fun ret op => match op with OpDouble => ret + ret | OpAddV => ret + v | OpNegate => - ret end) ops2
      (fold_left (fun ret op => match op with OpDouble => ret + ret | OpAddV => ret + v | OpNegate => - ret end) ops1 ret).
  Proof. apply fold_left_app. Qed.
  Lemma run_bits (v : K) bits : forall a : Z, (0 <= a)%Z ->
    fold_left (fun ret op => match op with OpDouble => ret + ret | OpAddV => ret + v | OpNegate => - ret end)
      (flat_map bitop bits) (fnat (Z.to_nat a) * v) =
    fnat (Z.to_nat (fold_left (fun v (b : bool) => 2 * v + (if b then 1 else 0)) bits a)%Z) * v.
  Proof.
    induction bits as [|b bits IH]; intros a Ha; [reflexivity|].
    cbn [flat_map]. rewrite run_app. cbn [fold_left].
    assert (E : fold_left (fun ret op => match op with OpDouble => ret + ret | OpAddV => ret + v | OpNegate => - ret end)
      (bitop b) (fnat (Z.to_nat a) * v) = fnat (Z.to_nat (2 * a + (if b then 1 else 0))) * v).
    { replace (Z.to_nat (2 * a + (if b then 1 else 0))) with (Z.to_nat a + Z.to_nat a + (if b then 1 else 0))%nat by (destruct b; lia).
      rewrite !fnat_add. destruct b; unfold bitop; cbn [fold_left fnat]; ring. }
    rewrite E. apply IH. destruct b; lia.
  Qed.
  Lemma skip_leading_head l b r : skip_leading l = b :: r -> b = true.
  Proof. induction l as [|[|] l IH]; cbn [skip_leading]; [discriminate|intros H; injection H as <- _; reflexivity|exact IH]. Qed.
  Lemma fast_mul_correct (value : Z) (v : K) : (- 2 ^ 63 < value < 2 ^ 63)%Z -> value <> 0%Z ->
    exists ops, generate_fast_multiplication value = Some ops /\ run_fast_multiplication ops v = fint value * v.
  Proof.
    intros R NZ. unfold generate_fast_multiplication.
    destruct (Z.eqb_spec value 0) as [E|_]; [contradiction|]. destruct (Z.eqb_spec value (- 2 ^ 63)) as [E|_]; [lia|].
    eexists. split; [reflexivity|]. unfold run_fast_multiplication. rewrite run_app.
    set (s := if (value <? 0)%Z then (- value)%Z else value).
    assert (Hs : (0 < s < 2 ^ 63)%Z) by (unfold s; destruct (Z.ltb_spec value 0); lia).
    assert (Hl : limbs64 1 [s]) by (split; [reflexivity|]; constructor; [lia|constructor]).
    pose proof (bits_be_val tt (fun _ _ => tt) (fun _ => tt) ltac:(reflexivity) 1 [s] Hl) as B. cbn [val] in B.
    destruct (bits_be_skipped [s]) as [|b bits] eqn:Eb.
    { exfalso. cbn in B. lia. }
    assert (b = true) by (eapply skip_leading_head; exact Eb). subst b. cbn [tl].
    pose proof (run_bits v bits 1 ltac:(lia)) as Rb.
    assert (E1 : fnat (Z.to_nat 1) * v = v) by (change (Z.to_nat 1) with 1%nat; cbn [fnat]; ring). rewrite E1 in Rb.
    fold bitop. change (fun b : bool => if b then [OpDouble; OpAddV] else [OpDouble]) with bitop. rewrite Rb. clear Rb E1.
    unfold be_val in B. cbn [fold_left] in B. replace (2 * 0 + 1)%Z with 1%Z in B by lia. rewrite B.
    replace (s + 2 ^ 64 * 0)%Z with s by lia.
    unfold fint, s. destruct (value <? 0)%Z; cbn [fold_left]; ring.
  Qed.
End Fast.

Section Overrides.
  Variable F : fld.
  Add Field Fov : (fld_theory F).
  Lemma bn254_override (nr2 : F -> F) (v : quad F) : (forall x, nr2 x = - x) ->
    quad_to_base (bn254_fq6_mul_by_non_residue nr2 v) = mod_mul 2 (- f1) [fnat 9; 1] (quad_to_base v).
  Proof.
    intros H. change [fnat 9; 1 : F] with (quad_to_base (Quad (fnat 9) 1 : quad F)). rewrite mod_mul_2.
    unfold bn254_fq6_mul_by_non_residue, quad_double, dbl, qm, quad_to_base. rewrite H. cbn [q0 q1 fnat].
    apply list2_eq; ring.
  Qed.
  Lemma bls12_381_override (v : quad F) :
    quad_to_base (bls12_381_fq6_mul_by_non_residue v) = mod_mul 2 (- f1) [1; 1] (quad_to_base v).
  Proof.
    change [1; 1 : F] with (quad_to_base (Quad 1 1 : quad F)). rewrite mod_mul_2.
    unfold bls12_381_fq6_mul_by_non_residue, qm, quad_to_base. cbn [q0 q1]. apply list2_eq; ring.
  Qed.
  Lemma shift2_correct (q : F) (nr2 : F -> F) (v : quad F) : (forall x, nr2 x = q * x) ->
    quad_to_base (shift_mul_by_non_residue2 nr2 v) = mod_mul 2 q [0; 1] (quad_to_base v).
  Proof.
    intros H. change [0; 1 : F] with (quad_to_base (Quad 0 1 : quad F)). rewrite mod_mul_2.
    unfold shift_mul_by_non_residue2, qm, quad_to_base. rewrite H. cbn [q0 q1]. apply list2_eq; ring.
  Qed.
  Lemma shift3_correct (q : F) (nr3 : F -> F) (v : cubic F) : (forall x, nr3 x = q * x) ->
    cubic_to_base (shift_mul_by_non_residue3 nr3 v) = mod_mul 3 q [0; 1; 0] (cubic_to_base v).
  Proof.
    intros H. change [0; 1; 0 : F] with (cubic_to_base (Cubic 0 1 0 : cubic F)). rewrite mod_mul_3.
    unfold shift_mul_by_non_residue3, cm, cubic_to_base. rewrite H. cbn [k0 k1 k2]. apply list3_eq; ring.
  Qed.
End Overrides.

(** ** CyclotomicPow *)
Definition fp12_csq (t : cfg12) (x : FP12 t) : FP12 t :=
  let r := fp12_fast_cyclotomic_square (fun y : FP2 (t_base t) => t_xi t * y)
             (q0 (x : quad (FP6 t)) : cubic (FP2 (t_base t)), q1 (x : quad (FP6 t)) : cubic (FP2 (t_base t))) in
  Quad (fst r : FP6 t) (snd r : FP6 t).
Definition fp12_cyclotomic_pow (t : cfg12) (x : FP12 t) (e : list Z) : option (FP12 t) :=
  cyclotomic_pow (1 : FP12 t) fmul (fp12_csq t) 0 (fun y : FP12 t => quad_is_zero (y : quad (FP6 t)))
    (fun y : FP12 t => quad_fast_cyclotomic_inverse (y : quad (FP6 t))) x e.

Section CPow.
  Variable L : fld.
  Add Field Lcp : (fld_theory L).
  Variables (x i : L) (csq : L -> L).
  Hypothesis Hcsq : forall a b, csq (x ^ a * i ^ b) = (x ^ a * i ^ b) * (x ^ a * i ^ b).
  Hypothesis Hi : x * i = 1.
  Lemma cpow_fold ds : Forall (fun d => d = -1 \/ d = 0 \/ d = 1)%Z ds -> forall a b found,
    (found = false -> a = 0%nat /\ b = 0%nat) ->
    exists a' b', fst (fold_left (cyc_pow_step fmul csq x i) ds (x ^ a * i ^ b, found)) = x ^ a' * i ^ b' /\
      (Z.of_nat a' - Z.of_nat b' = fold_left (fun v d => 2 * v + d) ds (Z.of_nat a - Z.of_nat b))%Z.
  Proof.
    induction ds as [|d ds IH]; intros HF a b found Hf; cbn [fold_left].
    - exists a, b. split; reflexivity.
    - inversion HF as [|? ? Hd HF']; subst. clear HF.
      assert (E : (if found then csq (x ^ a * i ^ b) else x ^ a * i ^ b) = x ^ (a + a) * i ^ (b + b)).
      { destruct found.
        - rewrite Hcsq, !fpow_add. ring.
        - destruct (Hf eq_refl) as [-> ->]. reflexivity. }
      unfold cyc_pow_step at 2. rewrite E. destruct Hd as [-> | [-> | ->]].
      + cbn [Z.eqb Z.ltb Z.compare].
        replace (x ^ (a + a) * i ^ (b + b) * i) with (x ^ (a + a) * i ^ (b + b + 1)) by (rewrite (fpow_add _ i (b + b) 1), fpow_1; ring).
        destruct (IH HF' (a + a)%nat (b + b + 1)%nat true ltac:(discriminate)) as (a' & b' & E1 & E2).
        exists a', b'. split; [exact E1|]. rewrite E2. f_equal. lia.
      + cbn [Z.eqb]. destruct (IH HF' (a + a)%nat (b + b)%nat found) as (a' & b' & E1 & E2).
        * intros H. destruct (Hf H) as [-> ->]. split; reflexivity.
        * exists a', b'. split; [exact E1|]. rewrite E2. f_equal. lia.
      + cbn [Z.eqb Z.ltb Z.compare].
        replace (x ^ (a + a) * i ^ (b + b) * x) with (x ^ (a + a + 1) * i ^ (b + b)) by (rewrite (fpow_add _ x (a + a) 1), fpow_1; ring).
        destruct (IH HF' (a + a + 1)%nat (b + b)%nat true ltac:(discriminate)) as (a' & b' & E1 & E2).
        exists a', b'. split; [exact E1|]. rewrite E2. f_equal. lia.
  Qed.
  Lemma digits_val_rev ds : forall acc, (fold_left (fun v d => 2 * v + d) (rev ds) acc =
    acc * 2 ^ Z.of_nat (length ds) + digits_val ds)%Z.
  Proof.
    induction ds as [|d ds IH]; intros acc; cbn [rev digits_val length fold_left].
    - cbn. lia.
    - rewrite fold_left_app. cbn [fold_left]. rewrite IH. rewrite Nat2Z.inj_succ, Z.pow_succ_r by lia. ring.
  Qed.
  Lemma cpow_cancel a b n : (Z.of_nat a - Z.of_nat b = Z.of_nat n)%Z -> x ^ a * i ^ b = x ^ n.
  Proof.
    intros E. replace a with (n + b)%nat by lia. rewrite fpow_add. transitivity (x ^ n * (x ^ b * i ^ b)); [ring|].
    rewrite <- fpow_mul_base, Hi, fpow_one. ring.
  Qed.
End CPow.

Lemma fp12_cyclotomic_pow_correct (t : cfg12) (x : FP12 t) n e : (0 < n)%nat -> cyclotomic t x -> limbs64 n e ->
  (val64 e < 2 ^ (64 * Z.of_nat n) - 1)%Z ->
  fp12_cyclotomic_pow t x e = Some (x ^ Z.to_nat (val64 e)).
Proof.
  intros Hn Hx He Hlt. unfold fp12_cyclotomic_pow, cyclotomic_pow.
  destruct (bi_to_naf_correct n e Hn He Hlt) as (ds & E1 & HF & _ & Ev & _). rewrite E1.
  pose proof (cyc_nz t x Hx) as NZ.
  assert (Z0 : quad_is_zero (x : quad (FP6 t)) = false) by (apply Bool.not_true_iff_false; rewrite quad_is_zero_iff; exact NZ).
  rewrite Z0. destruct (fp12_cyclotomic_inverse t x Hx) as (_ & i & Ei & Hi). rewrite Ei. f_equal.
  unfold do_cyclotomic_pow.
  assert (HFr : Forall (fun d => d = -1 \/ d = 0 \/ d = 1)%Z (rev ds)) by (apply Forall_rev; exact HF).
  pose proof (cyc_inv t x i Hx Hi) as Hci.
  assert (Hcsq : forall a b, fp12_csq t (fpow x a * fpow (i : FP12 t) b) = (fpow x a * fpow (i : FP12 t) b) * (fpow x a * fpow (i : FP12 t) b)).
  { intros a b. apply (fp12_cyclotomic_square t). apply cyc_mul; apply cyc_pow; assumption. }
  destruct (cpow_fold (FP12 t) x i (fp12_csq t) Hcsq (rev ds) HFr 0 0 false ltac:(intros _; split; reflexivity)) as (a & b & G1 & G2).
  cbn [fpow] in G1. rewrite (Rmul_1_l (F_R (fld_theory (FP12 t)))) in G1.
  rewrite G1. apply (cpow_cancel (FP12 t) x i (fp12_csq t) Hcsq Hi). rewrite G2, digits_val_rev, Ev.
  assert (0 <= val64 e)%Z by (apply (val_bound 64 n e); [lia|exact He]). lia.
Qed.
Lemma fp12_cyclotomic_pow_all_ones (t : cfg12) (x : FP12 t) n e : (0 < n)%nat -> cyclotomic t x -> limbs64 n e ->
  (val64 e = 2 ^ (64 * Z.of_nat n) - 1)%Z ->
  exists i, fp12_cyclotomic_pow t x e = Some i /\ x * i = 1.
Proof.
  intros Hn Hx He Hlt. unfold fp12_cyclotomic_pow, cyclotomic_pow. rewrite (bi_to_naf_max n e Hn He Hlt).
  pose proof (cyc_nz t x Hx) as NZ.
  assert (Z0 : quad_is_zero (x : quad (FP6 t)) = false) by (apply Bool.not_true_iff_false; rewrite quad_is_zero_iff; exact NZ).
  rewrite Z0. destruct (fp12_cyclotomic_inverse t x Hx) as (_ & i & Ei & Hi). rewrite Ei. exists i. split; [|exact Hi].
  f_equal. unfold do_cyclotomic_pow, cyc_pow_step. cbn [rev app fold_left Z.eqb Z.ltb Z.compare fst].
  apply (Rmul_1_l (F_R (fld_theory (FP12 t)))).
Qed.

(** ** Frobenius map of the quartic extension *)
Section QFrob.
  Variable F : fld.
  Add Field Fqf : (fld_theory F).
  Variables (q : F) (nr : F -> F) (Hnr : forall x, nr x = q * x).
  Variables (H2 : (fnat 2 : F) <> 0) (H3 : (fnat 3 : F) <> 0) (H5 : (fnat 5 : F) <> 0).
  Variables (cf : nat -> nat -> F) (w : F) (Hw : w * w = - f1)
    (Hcf : forall k e, (k <= 3)%nat -> (e <= 3)%nat -> cf k e = w ^ (k * e)) (Hns : non_square q).
  Let L : fld := quartic_fld F q nr Hnr H2 H3 H5 cf w Hw Hcf Hns.
  Add Field Lqf : (fld_theory L).
  Variables (p m : nat) (Hp : prime (Z.of_nat p)) (Hm : p = (4 * m + 1)%nat) (Hchar : (fnat p : F) = 0)
    (Hfin : forall a : F, a ^ p = a).
  Ltac rr := match goal with |- ?a = ?b => change (@eq F a b) end; ring.
  Lemma QLmul (x y : quartic F) : @fmul L x y = rm F q x y.
  Proof.
    change (@fmul L x y) with (quartic_mul nr x y). unfold quartic_mul.
    rewrite (quartic_do_mul_eq F q nr Hnr H2 H3 H5). reflexivity.
  Qed.
  Let emb (a : F) : L := Quartic a 0 0 0.
  Let y : L := Quartic 0 1 0 0.
  Lemma remb_mul a b : emb (a * b) = emb a * emb b.
  Proof. rewrite QLmul. unfold emb. apply quartic_ext; cbn [r0 r1 r2 r3 rm]; rr. Qed.
  Lemma remb_add a b : emb (a + b) = emb a + emb b.
  Proof. unfold emb. apply quartic_ext; cbn [r0 r1 r2 r3 fadd L quartic_fld quartic_add]; rr. Qed.
  Lemma remb_pow a n : emb (a ^ n) = (emb a) ^ n.
  Proof. induction n; [reflexivity|]. rewrite !fpow_S, remb_mul, IHn. reflexivity. Qed.
  Lemma remb_fnat n : (fnat n : L) = emb (fnat n).
  Proof. induction n; [reflexivity|]. cbn [fnat]. rewrite remb_add, IHn. reflexivity. Qed.
  Lemma y2 : y * y = (Quartic 0 0 1 0 : L).
  Proof. rewrite QLmul. unfold y. apply quartic_ext; cbn [r0 r1 r2 r3 rm]; rr. Qed.
  Lemma y3 : y * y * y = (Quartic 0 0 0 1 : L).
  Proof. rewrite y2, QLmul. unfold y. apply quartic_ext; cbn [r0 r1 r2 r3 rm]; rr. Qed.
  Lemma y4 : y ^ 4 = emb q.
  Proof.
    transitivity (y * y * y * y); [cbn [fpow]; ring|]. rewrite y3, QLmul. unfold y, emb.
    apply quartic_ext; cbn [r0 r1 r2 r3 rm]; rr.
  Qed.
  Lemma r_split (x : quartic F) : (x : L) = emb (r0 x) + emb (r1 x) * y + emb (r2 x) * (y * y) + emb (r3 x) * (y * y * y).
  Proof.
    rewrite y3, y2, !QLmul. unfold emb, y.
    apply quartic_ext; cbn [r0 r1 r2 r3 rm fadd L quartic_fld quartic_add]; rr.
  Qed.
  Lemma quartic_char : (fnat p : L) = 0.
  Proof. rewrite remb_fnat, Hchar. reflexivity. Qed.
  Lemma ypow e : y ^ (p ^ e) = emb (q ^ Nat.div (p ^ e - 1) 4) * y.
  Proof.
    destruct (pow_cong p 4 m e Hm) as (n & E). rewrite E.
    replace (4 * n + 1 - 1)%nat with (n * 4)%nat by lia. rewrite Nat.div_mul by lia.
    rewrite fpow_add, fpow_1, fpow_mul, y4, remb_pow. reflexivity.
  Qed.
  Lemma quartic_pow_p (x : quartic F) e :
    let k := q ^ Nat.div (p ^ e - 1) 4 in
    fpow (x : L) (p ^ e) = (Quartic (r0 x) (r1 x * k) (r2 x * (k * k)) (r3 x * (k * k * k)) : L).
  Proof.
    intros k. rewrite (r_split x) at 1. rewrite !(frob_add L p Hp quartic_char), !(frob_mul L p), ypow, <- !remb_pow.
    rewrite (r_split (Quartic _ _ _ _)). cbn [r0 r1 r2 r3]. fold k.
    assert (P : forall a : F, a ^ (p ^ e) = a) by (intros a; clear - Hfin; induction e as [|e IH]; [apply fpow_1|rewrite Nat.pow_succ_r', fpow_mul, Hfin; exact IH]).
    rewrite !P, !remb_mul. ring.
  Qed.
  Lemma quartic_fin (x : L) : x ^ (p ^ 4) = x.
  Proof.
    pose proof (quartic_pow_p x 4) as E. cbv zeta in E. rewrite E. clear E.
    assert (K1 : q ^ Nat.div (p ^ 4 - 1) 4 = 1).
    { destruct (pow_cong p 4 m 4 Hm) as (n & E).
      (* (p^4-1)/4 = m (p+1)(p^2+1) is a multiple of 4m = p - 1 *)
      assert (D : Nat.div (p ^ 4 - 1) 4 = ((p - 1) * ((2 * m + 1) * (8 * m * m + 4 * m + 1)))%nat).
      { symmetry. apply Nat.div_unique_exact; [lia|]. rewrite Hm. cbn [Nat.pow]. nia. }
      rewrite D, fpow_mul. replace (p - 1)%nat with (p ^ 1 - 1)%nat by (rewrite Nat.pow_1_r; lia).
      rewrite (fermat_k F p Hp); [apply fpow_one|intros a; rewrite Nat.pow_1_r; apply Hfin|].
      intros Z. apply (Hns 0). rewrite Z. ring. }
    rewrite K1. apply quartic_ext; cbn [r0 r1 r2 r3]; rr.
  Qed.
  Lemma quartic_frob (x : quartic F) e : quartic_frobenius (frob_coeff p 4 q) x e = fpow (x : L) (p ^ e).
  Proof.
    rewrite <- (frob_mod L p 4 e ltac:(lia) quartic_fin). pose proof (quartic_pow_p x (e mod 4)) as E. cbv zeta in E.
    etransitivity; [|symmetry; exact E]. unfold quartic_frobenius.
    assert (G : forall k, frob_coeff p 4 q k (Nat.modulo e 4) = (q ^ Nat.div (p ^ (Nat.modulo e 4) - 1) 4) ^ k).
    { intros k. unfold frob_coeff. destruct (Nat.modulo e 4) as [|d].
      - cbn [Nat.pow Nat.sub]. change (Nat.div 0 4) with 0%nat. cbn [fpow]. symmetry. apply fpow_one.
      - rewrite <- fpow_mul. f_equal. lia. }
    rewrite !G. apply quartic_ext; cbn [r0 r1 r2 r3 fpow]; rr.
  Qed.
End QFrob.

Lemma fpquartic_frob (c : cfgq) (x : quartic (FPg c)) e :
  quartic_frobenius (frob_coeff (g_p c) 4 (g_q c : FPg c)) x e = fpow (x : FPquartic c) (g_p c ^ e).
Proof.
  apply (quartic_frob (FPg c) (g_q c) (fun x => g_q c * x) (fun x => eq_refl) (g_n2 c) (g_n3 c) (g_n5 c)
    (frob_coeff (g_p c) 4 (g_q c : FPg c)) (g_q c ^ g_m c) (g_w c) (g_cf c) (g_non_square c) (g_p c) (g_m c) (g_prime c) (g_mod4 c)
    (prime_char (g_p c) (g_prime c))).
  intros a. pose proof (prime_frob1 (g_p c) (g_prime c) a) as E. rewrite Nat.pow_1_r in E. exact E.
Qed.

(** ** A quadratic Fp4 over Fp2 = Fp(sqrt -1) with a non-residue outside Fp *)
Section MinusOne.
  Variable c : cfg2.
  Hypothesis Hq : c_q c = - f1.
  Variables (z : FP2 c) (Hz : non_square z).
  Hypothesis Heuler : z ^ Nat.div (c_p c ^ 2 - 1) 2 = - f1.
  Let L : fld := quad_fld (FP2 c) z (fun x => z * x) false (fun x => eq_refl) Hz.
  Let p := c_p c.
  Let Hp : prime (Z.of_nat p) := c_prime c.
  Add Field F1m : (fld_theory (FP c)).
  Add Field F2m : (fld_theory (FP2 c)).
  Lemma minus_one_pow n : (- (f1 : FP c)) ^ n = 1 \/ (- (f1 : FP c)) ^ n = - f1.
  Proof. induction n as [|n [IH|IH]]; [left; reflexivity|right|left]; rewrite fpow_S, IH; ring. Qed.
  Lemma fp4_minus_one_wrong :
    quad_frobenius (fp2_frobenius c) (fun (b : FP2 c) (a : FP c) => quad_mul_base (b : quad (FP c)) a)
      (frob_coeff p 4 (c_q c : FP c) 1) 4 (Quad (0 : FP2 c) 1) 1 <> fpow (Quad (0 : FP2 c) 1 : L) (p ^ 1).
  Proof.
    intros E.
    pose proof (quad_pow_p (FP2 c) z (fun x => z * x) false (fun x => eq_refl) Hz p Hp (fp2_char c)
                  (ex_intro _ (c_half c) (c_odd c)) (Quad 0 1) 1) as E2.
    unfold L in E. rewrite E2 in E. clear E2. apply (f_equal q1) in E. unfold quad_frobenius in E. cbn [q0 q1] in E.
    rewrite fp2_frob, fpow_one in E. change (Nat.modulo 1 4) with 1%nat in E.
    set (a := frob_coeff p 4 (c_q c : FP c) 1 1) in E.
    assert (Ha : a = 1 \/ a = - f1).
    { unfold a, frob_coeff. rewrite Hq. apply minus_one_pow. }
    (* z^((p-1)/2) would be 1 or -1, hence z^((p^2-1)/2) = 1 *)
    assert (Ez : z ^ c_half c = (Quad a 0 : FP2 c)).
    { transitivity ((1 : FP2 c) ^ (p ^ 1) * z ^ Nat.div (p ^ 1 - 1) 2).
      - unfold p; rewrite (p_half c), fpow_one. ring.
      - etransitivity; [symmetry; exact E|]. unfold quad_mul_base. apply quad_ext; cbn [q0 q1 f1 FP2 quad_fld quad_one].
        + change (1 * a = a :> FP c). ring.
        + change (0 * a = 0 :> FP c). ring. }
    pose proof (c_odd c) as O.
    assert (Hh : Nat.div (p ^ 2 - 1) 2 = (c_half c * (2 * (c_half c + 1)))%nat).
    { symmetry. apply Nat.div_unique_exact; [lia|]. unfold p. rewrite O. cbn [Nat.pow]. nia. }
    pose proof Heuler as HE. fold p in HE. rewrite Hh, fpow_mul, Ez, fpow_mul in HE.
    assert (S1 : (Quad a 0 : FP2 c) ^ 2 = 1).
    { assert (Sa : a ^ 2 = 1) by (destruct Ha as [-> | ->]; cbn [fpow]; ring).
      pose proof (qemb_pow (FP c) (c_q c) (fun x => c_q c * x) true (fun x => eq_refl) (cfg2_non_square c) a 2) as E3.
      change ((Quad (a ^ 2) 0 : FP2 c) = (Quad a 0 : FP2 c) ^ 2) in E3. rewrite <- E3, Sa. reflexivity. }
    rewrite S1, fpow_one in HE. symmetry in HE. apply (f_equal q0) in HE.
    exact (minus_one_ne p Hp (cfg2_p3 c) HE).
  Qed.
End MinusOne.
