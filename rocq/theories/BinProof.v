(** The tower of binary fields, abstractly: quadratic extensions by X^2 = a X + 1, irreducible at every level because the absolute
    traces of a and of its inverse are 1. *)
From Coq Require Import NArith List Bool Ring Lia.
Import ListNotations.

Record bf := {
  car : Type;
  o0 : car; o1 : car;
  oadd : car -> car -> car;
  omul : car -> car -> car;
  oalpha : car;
  otr : car -> bool;
  oring : ring_theory o0 o1 oadd omul oadd (fun x => x) eq;
  odec : forall x y : car, {x = y} + {x <> y};
  o10 : o1 <> o0;
  oinv : forall x, x <> o0 -> exists y, omul x y = o1;
  otr_add : forall x y, otr (oadd x y) = xorb (otr x) (otr y);
  otr_sq : forall x, otr (omul x x) = otr x;
  otr_alpha : otr oalpha = true;
  otr_ialpha : exists w, omul oalpha w = o1 /\ otr w = true
}.

Section Phi.
Variable A : bf.
Definition phi (b : bool) : car A := if b then o1 A else o0 A.
Lemma self (x : car A) : oadd A x x = o0 A.
Proof. exact (Ropp_def (oring A) x). Qed.
Lemma phi_morph : ring_morph (o0 A) (o1 A) (oadd A) (omul A) (oadd A) (fun x => x) eq
  false true xorb andb xorb (fun b => b) Bool.eqb phi.
Proof.
  pose proof (oring A) as R. split; try reflexivity.
  - intros [] []; cbn; symmetry; first [apply self | apply (Radd_0_l R) | rewrite (Radd_comm R); apply (Radd_0_l R)].
  - intros [] []; cbn; symmetry; first [apply self | apply (Radd_0_l R) | rewrite (Radd_comm R); apply (Radd_0_l R)].
  - intros [] []; cbn; symmetry; try (apply (Rmul_1_l R)).

    + apply (ARmul_0_l (Rth_ARth (Eqsth (car A)) (Eq_ext _ _ _) R)).
    + apply (ARmul_0_l (Rth_ARth (Eqsth (car A)) (Eq_ext _ _ _) R)).
  - intros x y H. apply eqb_prop in H. subst; reflexivity.
Qed.
End Phi.

Section Ext.
Variable A : bf.
Notation "0" := (o0 A).
Notation "1" := (o1 A).
Infix "+" := (oadd A).
Infix "*" := (omul A).
Notation al := (oalpha A).
Add Ring Ar : (oring A) (morphism (phi_morph A)).

Definition eadd (x y : car A * car A) := (fst x + fst y, snd x + snd y).
Definition emul (x y : car A * car A) :=
  (fst x * fst y + snd x * snd y, fst x * snd y + snd x * fst y + al * (snd x * snd y)).
Definition etr (x : car A * car A) : bool := otr A (snd x * al).

Lemma e_ring : ring_theory (0, 0) (1, 0) eadd emul eadd (fun x => x) eq.
Proof.
  split; intros; repeat match goal with x : _ * _ |- _ => destruct x end;
    unfold eadd, emul; cbn [fst snd]; try reflexivity; f_equal; ring.
Qed.

Lemma no_zero_div (x y : car A) : x <> 0 -> x * y = 0 -> y = 0.
Proof.
  intros Hx E. destruct (oinv A x Hx) as (u & Hu).
  transitivity ((x * u) * y); [rewrite Hu; ring |].
  transitivity (u * (x * y)); [ring |]. rewrite E. ring.
Qed.

Definition delta (x0 x1 : car A) := x0 * (x0 + x1 * al) + x1 * x1.
Lemma delta_nz (x0 x1 : car A) : (x0, x1) <> (0, 0) -> delta x0 x1 <> 0.
Proof.
  intros Hne E. unfold delta in E. destruct (odec A x1 0) as [-> | H1].
  - assert (Hx : x0 <> 0) by congruence.
    assert (E2 : x0 * x0 = 0) by (rewrite <- E; ring).
    apply Hx, (no_zero_div x0 x0 Hx E2).
  - destruct (oinv A x1 H1) as (u & Hu). destruct (otr_ialpha A) as (w & Hw & Tw).
    set (s := x0 * u * w).
    assert (Es : s * s + s = w * w).
    { assert (P : s = x0 * x1 * al * (u * u) * (w * w)).
      { unfold s. transitivity (x0 * u * w * (x1 * u) * (al * w)); [rewrite Hu, Hw; ring | ring]. }
      rewrite P at 3. unfold s.
      transitivity ((x0 * (x0 + x1 * al) + x1 * x1) * (u * u) * (w * w) + (x1 * u) * (x1 * u) * (w * w)); [ring |].
      rewrite E, Hu. ring. }
    assert (T : otr A (s * s + s) = otr A (w * w)) by (rewrite Es; reflexivity).
    rewrite otr_add, !otr_sq, xorb_nilpotent, Tw in T. discriminate.
Qed.

Lemma e_inverse (x0 x1 d : car A) : delta x0 x1 * d = 1 ->
  emul (x0, x1) (d * (x0 + x1 * al), d * x1) = (1, 0).
Proof.
  intros E. unfold emul, delta in *. cbn [fst snd]. f_equal.
  - transitivity ((x0 * (x0 + x1 * al) + x1 * x1) * d); [ring | exact E].
  - ring.
Qed.
Lemma e_inv (x : car A * car A) : x <> (0, 0) -> exists y, emul x y = (1, 0).
Proof.
  destruct x as [x0 x1]. intros H. destruct (oinv A (delta x0 x1)) as (d & Hd); [apply delta_nz, H |].
  eexists. apply e_inverse, Hd.
Qed.
Lemma e_dec (x y : car A * car A) : {x = y} + {x <> y}.
Proof.
  destruct x as [a b], y as [c d], (odec A a c), (odec A b d); subst; first [left; reflexivity | right; congruence].
Qed.
Lemma e_tr_add x y : etr (eadd x y) = xorb (etr x) (etr y).
Proof.
  unfold etr, eadd. cbn [fst snd]. rewrite <- otr_add. f_equal. ring.
Qed.
Lemma e_tr_sq x : etr (emul x x) = etr x.
Proof.
  unfold etr, emul. cbn [fst snd]. rewrite <- (otr_sq A (snd x * al)). f_equal. ring.
Qed.
Lemma e_tr_alpha : etr (0, 1) = true.
Proof. unfold etr. cbn [snd]. rewrite <- (otr_alpha A). f_equal. ring. Qed.
Lemma e_tr_ialpha : exists w, emul (0, 1) w = (1, 0) /\ etr w = true.
Proof.
  exists (al, 1). split.
  - unfold emul. cbn [fst snd]. f_equal; ring.
  - unfold etr. cbn [snd]. rewrite <- (otr_alpha A). f_equal. ring.
Qed.
Lemma e_10 : (1, 0) <> (0, 0).
Proof. intros E. injection E. apply o10. Qed.

Definition ext : bf := Build_bf (car A * car A) (0, 0) (1, 0) eadd emul (0, 1) etr
  e_ring e_dec e_10 e_inv e_tr_add e_tr_sq e_tr_alpha e_tr_ialpha.
End Ext.

Lemma two_ring : ring_theory false true xorb andb xorb (fun x => x) eq.
Proof. split; intros; repeat match goal with x : bool |- _ => destruct x end; reflexivity. Qed.
Lemma two_inv (x : bool) : x <> false -> exists y, x && y = true.
Proof. destruct x; [exists true; reflexivity | congruence]. Qed.
Lemma two_sq (x : bool) : x && x = x.
Proof. destruct x; reflexivity. Qed.
Lemma two_ialpha : exists w, true && w = true /\ w = true.
Proof. exists true. split; reflexivity. Qed.
Definition two : bf := Build_bf bool false true xorb andb true (fun x => x)
  two_ring bool_dec diff_true_false two_inv (fun _ _ => eq_refl) two_sq eq_refl two_ialpha.

Fixpoint tower (k : nat) : bf := match k with O => two | S j => ext (tower j) end.
