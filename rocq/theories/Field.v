(** Abstract fields used as the coefficient domain of the algebraic models, with a few generic facts,
    and the concrete prime fields Z/p used for non-vacuity and for refutations. *)
From Coq Require Import ZArith List Bool Lia Znumtheory Field_theory Field Eqdep_dec.
From Coq Require Import ZifyBool ZifyNat Permutation.
Import ListNotations.

(** A field, with Leibniz equality and decidable equality. [finv f0] is unspecified: the code's
    Inverse()/operator/ report failure on zero, and models test for zero before inverting. *)
Record fld : Type := {
  car :> Type;
  f0 : car; f1 : car;
  fadd : car -> car -> car; fmul : car -> car -> car; fsub : car -> car -> car;
  fopp : car -> car; finv : car -> car; fdiv : car -> car -> car;
  feqb : car -> car -> bool;
  fld_theory : field_theory f0 f1 fadd fmul fsub fopp fdiv finv (@eq car);
  feqb_eq : forall x y, feqb x y = true <-> x = y
}.
Arguments f0 {_}. Arguments f1 {_}. Arguments fadd {_} _ _. Arguments fmul {_} _ _.
Arguments fsub {_} _ _. Arguments fopp {_} _. Arguments finv {_} _. Arguments fdiv {_} _ _.
Arguments feqb {_} _ _. Arguments fld_theory _ : clear implicits.

Declare Scope fld_scope.
Delimit Scope fld_scope with fld.
Notation "0" := f0 : fld_scope.
Notation "1" := f1 : fld_scope.
Notation "x + y" := (fadd x y) : fld_scope.
Notation "x * y" := (fmul x y) : fld_scope.
Notation "x - y" := (fsub x y) : fld_scope.
Notation "- x" := (fopp x) : fld_scope.
Notation "x / y" := (fdiv x y) : fld_scope.

(** Natural powers and integer multiples. *)
Fixpoint fpow {K : fld} (x : K) (n : nat) : K :=
  match n with O => f1 | S n' => fmul x (fpow x n') end.
Fixpoint fnat {K : fld} (n : nat) : K :=
  match n with O => f0 | S n' => fadd f1 (fnat n') end.
Fixpoint fsum {K : fld} (l : list K) : K :=
  match l with [] => f0 | x :: r => fadd x (fsum r) end.
Fixpoint fprod {K : fld} (l : list K) : K :=
  match l with [] => f1 | x :: r => fmul x (fprod r) end.
Notation "x ^ n" := (fpow x n) : fld_scope.

Section Facts.
  Variable K : fld.
  Add Field Kf : (fld_theory K).
  Open Scope fld_scope.

  Lemma f1_neq_0 : (1 : K) <> 0. Proof. apply (F_1_neq_0 (fld_theory K)). Qed.
  Lemma finv_l (x : K) : x <> 0 -> finv x * x = 1. Proof. apply (Finv_l (fld_theory K)). Qed.
  Lemma finv_r (x : K) : x <> 0 -> x * finv x = 1. Proof. intros H. field. exact H. Qed.
  Lemma feqb_refl (x : K) : feqb x x = true. Proof. apply feqb_eq. reflexivity. Qed.
  Lemma feqb_neq (x y : K) : feqb x y = false <-> x <> y.
  Proof. rewrite <- not_true_iff_false, feqb_eq. tauto. Qed.
  Lemma f_dec (x y : K) : {x = y} + {x <> y}.
  Proof. destruct (feqb x y) eqn:E; [left; apply feqb_eq; exact E | right; apply feqb_neq; exact E]. Qed.
  Lemma fmul_integral (x y : K) : x * y = 0 -> x = 0 \/ y = 0.
  Proof.
    intros H. destruct (f_dec x 0) as [E|E]; [left; exact E|right].
    transitivity (finv x * (x * y)); [field; exact E|]. rewrite H. ring.
  Qed.
  Lemma fmul_neq0 (x y : K) : x <> 0 -> y <> 0 -> x * y <> 0.
  Proof. intros Hx Hy H. apply fmul_integral in H. tauto. Qed.
  Lemma fmul_cancel_l (x y z : K) : x <> 0 -> x * y = x * z -> y = z.
  Proof.
    intros Hx H. assert (E : x * (y - z) = 0) by (transitivity (x * y - x * z); [ring | rewrite H; ring]).
    apply fmul_integral in E. destruct E as [E|E]; [contradiction|].
    transitivity (y - z + z); [ring | rewrite E; ring].
  Qed.
  Lemma fsub_eq0 (x y : K) : x - y = 0 <-> x = y.
  Proof. split; intros H; [transitivity (x - y + y); [ring | rewrite H; ring] | rewrite H; ring]. Qed.
  Lemma fopp_eq0 (x : K) : - x = 0 <-> x = 0.
  Proof. split; intros H; [transitivity (- - x); [ring | rewrite H; ring] | rewrite H; ring]. Qed.
  Lemma finv_neq0 (x : K) : x <> 0 -> finv x <> 0.
  Proof. intros H E. apply f1_neq_0. rewrite <- (finv_l x H), E. ring. Qed.
  Lemma finv_unique (x y : K) : x * y = 1 -> y = finv x.
  Proof.
    intros H. assert (Hx : x <> 0) by (intros ->; apply f1_neq_0; rewrite <- H; ring).
    apply (fmul_cancel_l x); auto. rewrite H. symmetry. apply finv_r. exact Hx.
  Qed.

  Lemma fpow_add (x : K) a b : x ^ (a + b) = x ^ a * x ^ b.
  Proof. induction a as [|a IH]; cbn [fpow Nat.add]; [ring|]. rewrite IH. ring. Qed.
  Lemma fpow_mul (x : K) a b : x ^ (a * b) = (x ^ a) ^ b.
  Proof.
    induction b as [|b IH]; [rewrite Nat.mul_0_r; reflexivity|].
    rewrite Nat.mul_succ_r, fpow_add, IH. cbn [fpow]. ring.
  Qed.
  Lemma fpow_1 (x : K) : x ^ 1 = x. Proof. cbn [fpow]. ring. Qed.
  Lemma fpow_one n : (1 : K) ^ n = 1.
  Proof. induction n as [|n IH]; cbn [fpow]; [reflexivity|]. rewrite IH. ring. Qed.
  Lemma fpow_0 n : (0 < n)%nat -> (0 : K) ^ n = 0.
  Proof. destruct n; [lia|]. intros _. cbn [fpow]. ring. Qed.
  Lemma fpow_mul_base (x y : K) n : (x * y) ^ n = x ^ n * y ^ n.
  Proof. induction n as [|n IH]; cbn [fpow]; [ring|]. rewrite IH. ring. Qed.
  Lemma fpow_neq0 (x : K) n : x <> 0 -> x ^ n <> 0.
  Proof. intros H. induction n as [|n IH]; cbn [fpow]; [apply f1_neq_0 | apply fmul_neq0; auto]. Qed.
  Lemma fpow_finv (x : K) n : x <> 0 -> (finv x) ^ n = finv (x ^ n).
  Proof.
    intros H. apply finv_unique. rewrite <- fpow_mul_base, finv_r by exact H. apply fpow_one.
  Qed.
  Lemma fpow_S (x : K) n : x ^ (S n) = x * x ^ n. Proof. reflexivity. Qed.

  Lemma fsum_app (a b : list K) : fsum (a ++ b) = fsum a + fsum b.
  Proof. induction a as [|x a IH]; cbn [fsum app]; [ring|]. rewrite IH. ring. Qed.
  Lemma fsum_rev (a : list K) : fsum (rev a) = fsum a.
  Proof. induction a as [|x a IH]; cbn [fsum rev]; [reflexivity|]. rewrite fsum_app, IH. cbn [fsum]. ring. Qed.
  Lemma fsum_perm (a b : list K) : Permutation a b -> fsum a = fsum b.
  Proof. induction 1; cbn [fsum]; [reflexivity | rewrite IHPermutation; ring | ring | congruence]. Qed.
  Lemma fprod_app (a b : list K) : fprod (a ++ b) = fprod a * fprod b.
  Proof. induction a as [|x a IH]; cbn [fprod app]; [ring|]. rewrite IH. ring. Qed.
  Lemma fprod_perm (a b : list K) : Permutation a b -> fprod a = fprod b.
  Proof. induction 1; cbn [fprod]; [reflexivity | rewrite IHPermutation; ring | ring | congruence]. Qed.
  Lemma fprod_neq0 (l : list K) : (forall x, In x l -> x <> 0) -> fprod l <> 0.
  Proof.
    induction l as [|x l IH]; intros H; cbn [fprod]; [apply f1_neq_0|].
    apply fmul_neq0; [apply H; left; reflexivity | apply IH; intros y Hy; apply H; right; exact Hy].
  Qed.
  Lemma fsum_map_add {A} (f g : A -> K) l : fsum (map (fun i => f i + g i) l) = fsum (map f l) + fsum (map g l).
  Proof. induction l as [|x l IH]; cbn [map fsum]; [ring|]. rewrite IH. ring. Qed.
  Lemma fsum_map_mul {A} (f : A -> K) c l : fsum (map (fun i => c * f i) l) = c * fsum (map f l).
  Proof. induction l as [|x l IH]; cbn [map fsum]; [ring|]. rewrite IH. ring. Qed.
  Lemma fsum_map_zero {A} (f : A -> K) l : (forall i, In i l -> f i = 0) -> fsum (map f l) = 0.
  Proof.
    induction l as [|x l IH]; intros H; cbn [map fsum]; [reflexivity|].
    rewrite H, IH; [ring | intros i Hi; apply H; right; exact Hi | left; reflexivity].
  Qed.
  Lemma fsum_map_ext {A} (f g : A -> K) l : (forall i, In i l -> f i = g i) -> fsum (map f l) = fsum (map g l).
  Proof. intros H. f_equal. apply map_ext_in. exact H. Qed.
  Lemma fsum_swap {A B} (f : A -> B -> K) la lb :
    fsum (map (fun a => fsum (map (f a) lb)) la) = fsum (map (fun b => fsum (map (fun a => f a b) la)) lb).
  Proof.
    induction la as [|a la IH]; cbn [map fsum].
    - symmetry. apply fsum_map_zero. reflexivity.
    - rewrite IH, <- fsum_map_add. reflexivity.
  Qed.
  (** Geometric series. *)
  Lemma geometric (x : K) n : (x - 1) * fsum (map (fun i => x ^ i) (seq 0 n)) = x ^ n - 1.
  Proof.
    induction n as [|n IH].
    - cbn. ring.
    - rewrite seq_S, map_app, fsum_app. cbn [map fsum Nat.add fpow].
      transitivity ((x - 1) * fsum (map (fun i => x ^ i) (seq 0 n)) + (x - 1) * x ^ n); [ring|].
      rewrite IH. ring.
  Qed.
End Facts.
