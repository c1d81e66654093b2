(** Proofs about the towers: finite-field facts, Frobenius maps, cyclotomic operations. *)
From Coq Require Import ZArith List Bool Arith Lia Znumtheory Ring Field Field_theory.
From Coq Require Import ZifyNat.
From Verif Require Import Field Zp ExtFieldModel TowerModel ExtFieldSpec ExtFieldProof FrobProof ExtFieldExtra.
Import ListNotations.
Open Scope fld_scope.

Lemma pow_pos p d : prime (Z.of_nat p) -> (1 <= p ^ d)%nat.
Proof. intros H. pose proof (prime_ge_2 _ H). pose proof (Nat.pow_nonzero p d). lia. Qed.
(** p = 1 mod m implies p^e = 1 mod m *)
Lemma pow_cong p m s e : p = (m * s + 1)%nat -> exists t, (p ^ e = m * t + 1)%nat.
Proof.
  intros E. induction e as [|e (t & IH)].
  - exists 0%nat. cbn. lia.
  - exists (p * t + s)%nat. rewrite Nat.pow_succ_r'. rewrite IH. rewrite E at 2. rewrite E at 1. nia.
Qed.

(** ** Quadratic level *)
Section Quad.
  Variable B : fld.
  Add Field Bf1 : (fld_theory B).
  Variables (z : B) (nr : B -> B) (pb : bool).
  Hypothesis Hnr : forall x, nr x = z * x.
  Hypothesis Hz : non_square z.
  Let L : fld := quad_fld B z nr pb Hnr Hz.
  Add Field Lf1 : (fld_theory L).
  Definition qemb (b : B) : L := Quad b 0.
  Definition qy : L := Quad 0 1.
  Lemma Lmul (x y : quad B) : @fmul L x y = qm B z x y.
  Proof. apply (quad_mul_eq B z nr pb Hnr). Qed.
  Lemma qemb_mul a b : qemb (a * b) = qemb a * qemb b.
  Proof. rewrite Lmul. apply quad_ext; cbn [q0 q1 qemb qm]; ring. Qed.
  Lemma qemb_add a b : qemb (a + b) = qemb a + qemb b.
  Proof. apply quad_ext; cbn [q0 q1 qemb fadd L quad_fld quad_add]; ring. Qed.
  Lemma qemb_pow a n : qemb (a ^ n) = (qemb a) ^ n.
  Proof. induction n; [reflexivity|]. rewrite !fpow_S, qemb_mul, IHn. reflexivity. Qed.
  Lemma qemb_fnat n : (fnat n : L) = qemb (fnat n).
  Proof. induction n; [reflexivity|]. cbn [fnat]. rewrite qemb_add, IHn. reflexivity. Qed.
  Lemma qy_square : qy * qy = qemb z.
  Proof. rewrite Lmul. apply quad_ext; cbn [q0 q1 qemb qm qy]; ring. Qed.
  Lemma quad_split (x : quad B) : (x : L) = qemb (q0 x) + qemb (q1 x) * qy.
  Proof. rewrite Lmul. apply quad_ext; cbn [q0 q1 qemb qm qy fadd L quad_fld quad_add]; ring. Qed.
  Lemma qemb_y a b : (Quad a b : L) = qemb a + qemb b * qy.
  Proof. apply (quad_split (Quad a b)). Qed.
  Lemma z_nz : z <> 0. Proof. intros E. apply (Hz 0). rewrite E. ring. Qed.

  Variable p : nat.
  Hypothesis Hp : prime (Z.of_nat p).
  Hypothesis Hchar : (fnat p : B) = 0.
  Lemma quad_char : (fnat p : L) = 0.
  Proof. rewrite qemb_fnat, Hchar. reflexivity. Qed.
  Hypothesis Hodd : exists s, p = (2 * s + 1)%nat.
  Lemma qy_pow e : qy ^ (p ^ e) = qemb (z ^ Nat.div (p ^ e - 1) 2) * qy.
  Proof.
    destruct Hodd as (s & Es). destruct (pow_cong p 2 s e Es) as (t & Et). rewrite Et.
    replace (2 * t + 1 - 1)%nat with (t * 2)%nat by lia. rewrite Nat.div_mul by lia.
    rewrite fpow_add, fpow_1, fpow_mul, qemb_pow. replace (qy ^ 2) with (qemb z); [reflexivity|].
    rewrite <- qy_square. cbn [fpow]. ring.
  Qed.
  Lemma quad_pow_p (x : quad B) e :
    fpow (x : L) (p ^ e) = (Quad (fpow (q0 x) (p ^ e)) (fpow (q1 x) (p ^ e) * z ^ Nat.div (p ^ e - 1) 2) : L).
  Proof.
    rewrite (quad_split x) at 1. rewrite (frob_add L p Hp quad_char), (frob_mul L p), qy_pow, <- !qemb_pow.
    rewrite (qemb_y _ _), qemb_mul. ring.
  Qed.
  (** the field has p^(2d) elements when the base has p^d *)
  Variable d : nat.
  Hypothesis Hfin : forall x : B, x ^ (p ^ d) = x.
  Lemma Hhalf : exists t, (p ^ d - 1 = 2 * t)%nat /\ Nat.div (p ^ d - 1) 2 = t.
  Proof.
    destruct Hodd as (s & Es). destruct (pow_cong p 2 s d Es) as (t & Et). exists t. rewrite Et.
    split; [lia|]. replace (2 * t + 1 - 1)%nat with (t * 2)%nat by lia. apply Nat.div_mul. lia.
  Qed.
  (** Euler's criterion for a non-square *)
  Hypothesis Heuler : z ^ Nat.div (p ^ d - 1) 2 = - f1.
  Lemma quad_pow_conj (x : quad B) : fpow (x : L) (p ^ d) = (quad_conjugate x : L).
  Proof.
    rewrite quad_pow_p, !Hfin, Heuler. unfold quad_conjugate. apply quad_ext; cbn [q0 q1]; ring.
  Qed.
  Lemma quad_fin (x : L) : x ^ (p ^ (2 * d)) = x.
  Proof.
    replace (2 * d)%nat with (d + d)%nat by lia. rewrite <- (pow_p_compose L p).
    rewrite (quad_pow_conj x), (quad_pow_conj (quad_conjugate x)). unfold quad_conjugate.
    apply quad_ext; cbn [q0 q1]; ring.
  Qed.
  (** the norm-one elements: conjugation inverts *)
  Lemma quad_norm_one (x : quad B) : fpow (x : L) (p ^ d + 1) = 1 -> qm B z x (quad_conjugate x) = quad_one.
  Proof.
    intros H. rewrite <- Lmul, <- quad_pow_conj. change (quad_one : quad B) with (1 : L). rewrite <- H, fpow_add, fpow_1.
    apply (Rmul_comm (F_R (fld_theory L))).
  Qed.

  (** the Frobenius map *)
  Variable phi : B -> nat -> B.
  Hypothesis Hphi : forall x e, phi x e = x ^ (p ^ e).
  Variable deg : nat.
  Hypothesis Hdeg : (0 < deg)%nat.
  Hypothesis Hper : forall x : L, x ^ (p ^ deg) = x.
  Lemma qcoef_mod e : z ^ Nat.div (p ^ (e mod deg) - 1) 2 = z ^ Nat.div (p ^ e - 1) 2.
  Proof.
    pose proof (frob_mod L p deg e Hdeg Hper qy) as E. rewrite !qy_pow in E.
    assert (G : forall a b, qemb a * qy = qemb b * qy -> a = b).
    { intros a b H. rewrite !Lmul in H. apply (f_equal q1) in H. cbn [q0 q1 qemb qm qy] in H.
      transitivity (a * 1 + 0 * 0); [ring|]. rewrite H. ring. }
    exact (G _ _ E).
  Qed.
  Lemma quad_frob_gen (C : fld) (act : B -> C -> B) (cf : nat -> C) :
    (forall e b, (e < deg)%nat -> act b (cf e) = b * z ^ Nat.div (p ^ e - 1) 2) ->
    forall (x : quad B) e, quad_frobenius phi act cf deg x e = fpow (x : L) (p ^ e).
  Proof. clear Heuler Hfin.
    intros Hact x e. unfold quad_frobenius. rewrite Hact by (apply Nat.mod_upper_bound; lia). rewrite !Hphi, qcoef_mod. symmetry. apply quad_pow_p.
  Qed.
  Lemma quad_coeff_gen (C : fld) (emb : C -> B) (zc : C) m m' s :
    (forall n, emb (zc ^ n) = emb zc ^ n) -> m = (2 * m')%nat -> (0 < m')%nat -> p = (m * s + 1)%nat ->
    z ^ m' = emb zc ->
    forall e, emb (frob_coeff p m zc 1 e) = z ^ Nat.div (p ^ e - 1) 2.
  Proof. clear - B z.
    intros He Em Hm' Es Ez e. unfold frob_coeff. destruct e as [|e].
    - cbn [Nat.pow Nat.sub Nat.div fpow]. apply (He 0%nat).
    - destruct (pow_cong p m s (S e) Es) as (t & Et). rewrite Et. replace (m * t + 1 - 1)%nat with (t * m)%nat by lia.
      rewrite Nat.div_mul by lia. rewrite Nat.mul_1_l, He, <- Ez, <- fpow_mul. f_equal.
      subst m. replace (t * (2 * m'))%nat with (m' * t * 2)%nat by lia. rewrite Nat.div_mul by lia. reflexivity.
  Qed.
End Quad.

(** ** Cubic level *)
Section Cubic.
  Variable B : fld.
  Add Field Bf2 : (fld_theory B).
  Variables (z : B) (nr : B -> B).
  Hypothesis Hnr : forall x, nr x = z * x.
  Hypothesis Hz : non_cube z.
  Let L : fld := cubic_fld B z nr Hnr Hz.
  Add Field Lf2 : (fld_theory L).
  Definition cemb (b : B) : L := Cubic b 0 0.
  Definition cv : L := Cubic 0 1 0.
  Lemma LCmul (x y : cubic B) : @fmul L x y = cm B z x y.
  Proof. change (@fmul L x y) with (cubic_mul nr x y). unfold cubic_mul. rewrite (cubic_do_mul_eq B z nr Hnr). reflexivity. Qed.
  Lemma cemb_mul a b : cemb (a * b) = cemb a * cemb b.
  Proof. rewrite LCmul. apply cubic_ext; cbn [k0 k1 k2 cemb cm]; ring. Qed.
  Lemma cemb_add a b : cemb (a + b) = cemb a + cemb b.
  Proof. apply cubic_ext; cbn [k0 k1 k2 cemb fadd L cubic_fld cubic_add]; ring. Qed.
  Lemma cemb_pow a n : cemb (a ^ n) = (cemb a) ^ n.
  Proof. induction n; [reflexivity|]. rewrite !fpow_S, cemb_mul, IHn. reflexivity. Qed.
  Lemma cemb_fnat n : (fnat n : L) = cemb (fnat n).
  Proof. induction n; [reflexivity|]. cbn [fnat]. rewrite cemb_add, IHn. reflexivity. Qed.
  Lemma cv_square : cv * cv = (Cubic 0 0 1 : L).
  Proof. rewrite LCmul. apply cubic_ext; cbn [k0 k1 k2 cemb cm cv]; ring. Qed.
  Lemma cv_cube : cv * cv * cv = cemb z.
  Proof. rewrite cv_square, LCmul. apply cubic_ext; cbn [k0 k1 k2 cemb cm cv]; ring. Qed.
  Lemma cubic_split (x : cubic B) : (x : L) = cemb (k0 x) + cemb (k1 x) * cv + cemb (k2 x) * (cv * cv).
  Proof. rewrite cv_square, !LCmul. apply cubic_ext; cbn [k0 k1 k2 cemb cm cv fadd L cubic_fld cubic_add]; ring. Qed.
  Lemma cemb_v a b c : (Cubic a b c : L) = cemb a + cemb b * cv + cemb c * (cv * cv).
  Proof. apply (cubic_split (Cubic a b c)). Qed.

  Variable p : nat.
  Hypothesis Hp : prime (Z.of_nat p).
  Hypothesis Hchar : (fnat p : B) = 0.
  Lemma cubic_char : (fnat p : L) = 0.
  Proof. rewrite cemb_fnat, Hchar. reflexivity. Qed.
  Hypothesis H13 : exists s, p = (3 * s + 1)%nat.
  Lemma cv_pow e : cv ^ (p ^ e) = cemb (z ^ Nat.div (p ^ e - 1) 3) * cv.
  Proof.
    destruct H13 as (s & Es). destruct (pow_cong p 3 s e Es) as (t & Et). rewrite Et.
    replace (3 * t + 1 - 1)%nat with (t * 3)%nat by lia. rewrite Nat.div_mul by lia.
    rewrite fpow_add, fpow_1, fpow_mul, cemb_pow. replace (cv ^ 3) with (cemb z); [reflexivity|].
    rewrite <- cv_cube. cbn [fpow]. ring.
  Qed.
  Lemma cubic_pow_p (x : cubic B) e :
    let c := z ^ Nat.div (p ^ e - 1) 3 in
    fpow (x : L) (p ^ e) = (Cubic (fpow (k0 x) (p ^ e)) (fpow (k1 x) (p ^ e) * c) (fpow (k2 x) (p ^ e) * (c * c)) : L).
  Proof.
    intros c. rewrite (cubic_split x) at 1. rewrite !(frob_add L p Hp cubic_char), !(frob_mul L p), cv_pow, <- !cemb_pow.
    rewrite (cemb_v _ _ _). fold c. rewrite !cemb_mul. ring.
  Qed.
  Variable d : nat.
  Hypothesis Hfin : forall x : B, x ^ (p ^ d) = x.
  Lemma cubic_fin (x : L) : x ^ (p ^ (3 * d)) = x.
  Proof.
    set (c := z ^ Nat.div (p ^ d - 1) 3). assert (Ec : c * c * c = 1).
    { assert (G : c ^ 3 = 1); [|rewrite <- G; cbn [fpow]; ring]. unfold c. rewrite <- fpow_mul.
      destruct H13 as (s & Es). destruct (pow_cong p 3 s d Es) as (t & Et). rewrite Et.
      replace (3 * t + 1 - 1)%nat with (t * 3)%nat by lia. rewrite Nat.div_mul by lia.
      replace (t * 3)%nat with (p ^ d - 1)%nat by lia. apply (fermat_k B p Hp); [exact Hfin|].
      intros E. apply (Hz 0). rewrite E. ring. }
    assert (G : forall x : cubic B, fpow (x : L) (p ^ d) = (Cubic (k0 x) (k1 x * c) (k2 x * (c * c)) : L)).
    { intros y. rewrite (cubic_pow_p y d). fold c. rewrite !Hfin. reflexivity. }
    replace (3 * d)%nat with (d + d + d)%nat by lia. rewrite <- !(pow_p_compose L p). rewrite !G. cbn [k0 k1 k2].
    apply cubic_ext; cbn [k0 k1 k2].
    - reflexivity.
    - transitivity (k1 x * (c * c * c)); [ring|]. rewrite Ec. ring.
    - transitivity (k2 x * (c * c * c) * (c * c * c)); [ring|]. rewrite Ec. ring.
  Qed.

  Variable phi : B -> nat -> B.
  Hypothesis Hphi : forall x e, phi x e = x ^ (p ^ e).
  Variable deg : nat.
  Hypothesis Hdeg : (0 < deg)%nat.
  Hypothesis Hper : forall x : L, x ^ (p ^ deg) = x.
  Lemma ccoef_mod e : z ^ Nat.div (p ^ (e mod deg) - 1) 3 = z ^ Nat.div (p ^ e - 1) 3.
  Proof.
    pose proof (frob_mod L p deg e Hdeg Hper cv) as E. rewrite !cv_pow in E.
    assert (G : forall a b, cemb a * cv = cemb b * cv -> a = b).
    { intros a b H. rewrite !LCmul in H. apply (f_equal k1) in H. cbn [k0 k1 k2 cemb cm cv] in H.
      transitivity (a * 1 + 0 * 0 + z * (0 * 0)); [ring|]. rewrite H. ring. }
    exact (G _ _ E).
  Qed.
  Lemma cubic_frob_gen (C : fld) (act : B -> C -> B) (cf cf2 : nat -> C) :
    (forall e b, act b (cf e) = b * z ^ Nat.div (p ^ e - 1) 3) ->
    (forall e b, act b (cf2 e) = b * (z ^ Nat.div (p ^ e - 1) 3 * z ^ Nat.div (p ^ e - 1) 3)) ->
    forall (x : cubic B) e, cubic_frobenius phi act cf cf2 deg x e = fpow (x : L) (p ^ e).
  Proof. clear Hfin.
    intros Hact Hact2 x e. unfold cubic_frobenius. rewrite Hact, Hact2, !Hphi, !ccoef_mod. symmetry. apply (cubic_pow_p x e).
  Qed.
  Lemma cubic_coeff_gen k e : frob_coeff p 3 z k e = (z ^ Nat.div (p ^ e - 1) 3) ^ k.
  Proof. clear - B z.
    unfold frob_coeff. destruct e as [|e].
    - cbn [Nat.pow Nat.sub Nat.div fpow]. change (Nat.div 0 3) with 0%nat. cbn [fpow]. symmetry. apply fpow_one.
    - rewrite <- fpow_mul. f_equal. lia.
  Qed.
End Cubic.
