From Coq Require Import ZArith List Bool Lia Ring Field Field_theory.
From Verif Require Import Field SemigroupModel SemigroupProof ExtFieldModel ExtFieldProof ECModel ECSpec.
Import ListNotations.

Section EC.
  Variable K : fld.
  Add Field Kec : (fld_theory K).
  Open Scope fld_scope.
  Variables (a b : K) (a0 low : bool).
  Hypothesis two : (1 + 1 : K) <> 0.
  Hypothesis Ha : a0 = true -> a = 0.

  Lemma dbl_two (x : K) : x + x = 0 -> x = 0.
  Proof. intros H. destruct (fmul_integral K (1 + 1) x) as [E|E]; [rewrite <- H; ring|contradiction|exact E]. Qed.
  Lemma opp_self (x : K) : x = - x -> x = 0.
  Proof. intros H. apply dbl_two. rewrite H at 1. ring. Qed.
  Lemma on_curve_same_x x y y' : on_curve a b (Some (x, y)) -> on_curve a b (Some (x, y')) -> y = y' \/ y = - y'.
  Proof.
    cbn [on_curve]. intros E1 E2. assert (E : (y - y') * (y + y') = 0).
    { transitivity (y * y - y' * y'); [ring|]. rewrite E1, E2. ring. }
    destruct (fmul_integral K _ _ E) as [H|H]; [left|right].
    - apply (proj1 (fsub_eq0 K _ _)) in H. exact H.
    - transitivity (y + y' - y'); [ring|]. rewrite H. ring.
  Qed.

  (** ** The affine law *)
  Lemma plus_none_r P : plus a P None = P.
  Proof. destruct P as [[x y]|]; reflexivity. Qed.
  Lemma line_meets x1 y1 x2 y2 l :
    on_curve a b (Some (x1, y1)) -> on_curve a b (Some (x2, y2)) -> x1 <> x2 -> l * (x2 - x1) = y2 - y1 -> on_curve a b (third l x1 y1 x2).
  Proof.
    cbn [on_curve third]. intros E1 E2 Hx Hl. set (x3 := l * l - x1 - x2).
    (* x^3 + a x + b - (l (x - x1) + y1)^2 - (x - x1) (x - x2) (x - x3) = c x + d *)
    set (c := a + l * l * x1 + l * l * x1 - (l * y1 + l * y1) - (x1 * x2 + x1 * x3 + x2 * x3)).
    set (d := b - (y1 - l * x1) * (y1 - l * x1) + x1 * x2 * x3).
    assert (I : forall x, x * x * x + a * x + b - (l * (x - x1) + y1) * (l * (x - x1) + y1) = (x - x1) * (x - x2) * (x - x3) + (c * x + d)).
    { intros x. unfold c, d. assert (X : l * l = x1 + x2 + x3) by (unfold x3; ring). 
      transitivity (x * x * x + a * x + b - (l * l * (x - x1) * (x - x1) + (l * (x - x1) * y1 + l * (x - x1) * y1) + y1 * y1)); [ring|].
      transitivity ((x - x1) * (x - x2) * (x - x3) + ((a + l * l * x1 + l * l * x1 - (l * y1 + l * y1) - (x1 * x2 + x1 * x3 + x2 * x3)) * x + (b - (y1 * y1 - (l * x1 * y1 + l * x1 * y1) + l * l * x1 * x1) + x1 * x2 * x3))); [|ring].
      rewrite X. ring. }
    assert (C1 : c * x1 + d = 0).
    { pose proof (I x1) as X. replace ((x1 - x1) * (x1 - x2) * (x1 - x3)) with (0 : K) in X by ring.
      transitivity (0 + (c * x1 + d)); [ring|]. rewrite <- X. rewrite <- E1. ring. }
    assert (C2 : c * x2 + d = 0).
    { pose proof (I x2) as X. replace ((x2 - x1) * (x2 - x2) * (x2 - x3)) with (0 : K) in X by ring.
      transitivity (0 + (c * x2 + d)); [ring|]. rewrite <- X. rewrite <- E2, Hl. ring. }
    assert (Hc : c = 0).
    { assert (E : c * (x1 - x2) = 0). { transitivity (c * x1 + d - (c * x2 + d)); [ring|]. rewrite C1, C2. ring. }
      destruct (fmul_integral K _ _ E) as [H|H]; [exact H|]. exfalso. apply Hx. apply (proj1 (fsub_eq0 K _ _)). exact H. }
    assert (Hd : d = 0). { transitivity (c * x1 + d - c * x1); [ring|]. rewrite C1, Hc. ring. }
    pose proof (I x3) as X. rewrite Hc, Hd in X.
    assert (Y : x3 * x3 * x3 + a * x3 + b - (l * (x3 - x1) + y1) * (l * (x3 - x1) + y1) = 0) by (rewrite X; ring).
    apply (proj1 (fsub_eq0 K _ _)) in Y. rewrite Y. ring.
  Qed.
  Lemma tangent_meets x1 y1 l :
    on_curve a b (Some (x1, y1)) -> l * (y1 + y1) = x1 * x1 + x1 * x1 + x1 * x1 + a -> on_curve a b (third l x1 y1 x1).
  Proof.
    cbn [on_curve third]. intros E1 Hl. set (x3 := l * l - x1 - x1).
    assert (X : l * l = x1 + x1 + x3) by (unfold x3; ring).
    assert (Hb : b = y1 * y1 - x1 * x1 * x1 - a * x1) by (rewrite E1; ring).
    assert (Hla : a = l * (y1 + y1) - (x1 * x1 + x1 * x1 + x1 * x1)) by (rewrite Hl; ring).
    rewrite Hb, Hla. transitivity (l * l * (x1 - x3) * (x1 - x3) - (l * (x1 - x3) * y1 + l * (x1 - x3) * y1) + y1 * y1); [ring|].
    rewrite X. ring.
  Qed.
  Lemma plus_on_curve P Q : on_curve a b P -> on_curve a b Q -> on_curve a b (plus a P Q).
  Proof.
    destruct P as [[x1 y1]|]; [|intros; assumption]. destruct Q as [[x2 y2]|]; [|intros; assumption]. intros H1 H2. cbn [plus].
    destruct (feqb x1 x2) eqn:Ex.
    - apply (proj1 (feqb_eq K _ _)) in Ex. subst x2. destruct (feqb y1 (- y2)) eqn:Ey; [exact I|]. apply (proj1 (feqb_neq K _ _)) in Ey.
      apply tangent_meets; [exact H1|]. destruct (on_curve_same_x _ _ _ H1 H2) as [E|E]; [|contradiction]. subst y2.
      field. intros E. apply Ey. rewrite (dbl_two y1 E). ring.
    - apply (proj1 (feqb_neq K _ _)) in Ex. apply (line_meets x1 y1 x2 y2); auto. field. intros E. apply Ex. symmetry. apply (proj1 (fsub_eq0 K _ _)). exact E.
  Qed.
  Lemma minus_on_curve P : on_curve a b P -> on_curve a b (minus P).
  Proof. destruct P as [[x y]|]; [|auto]. cbn [minus on_curve]. intros <-. ring. Qed.
  Lemma plus_minus P : plus a P (minus P) = None.
  Proof.
    destruct P as [[x y]|]; [|reflexivity]. cbn [plus minus]. rewrite feqb_refl.
    replace (feqb y (- - y)) with true; [reflexivity|]. symmetry. apply feqb_eq. ring.
  Qed.
  Lemma plus_comm P Q : on_curve a b P -> on_curve a b Q -> plus a P Q = plus a Q P.
  Proof.
    intros H1 H2. destruct P as [[x1 y1]|]; [|symmetry; apply plus_none_r]. destruct Q as [[x2 y2]|]; [|reflexivity]. cbn [plus].
    destruct (feqb x1 x2) eqn:Ex.
    - apply (proj1 (feqb_eq K _ _)) in Ex. subst x2. rewrite feqb_refl.
      destruct (feqb y1 (- y2)) eqn:Ey.
      + apply (proj1 (feqb_eq K _ _)) in Ey. replace (feqb y2 (- y1)) with true; [reflexivity|]. symmetry. apply feqb_eq. rewrite Ey. ring.
      + apply (proj1 (feqb_neq K _ _)) in Ey. replace (feqb y2 (- y1)) with false.
        2:{ symmetry. apply feqb_neq. intros E. apply Ey. rewrite E. ring. }
        destruct (on_curve_same_x _ _ _ H1 H2) as [E|E]; [|contradiction]. subst y2. reflexivity.
    - apply (proj1 (feqb_neq K _ _)) in Ex. replace (feqb x2 x1) with false.
      2:{ symmetry. apply feqb_neq. intros E. apply Ex. auto. }
      assert (D1 : x2 - x1 <> 0) by (intros E; apply Ex; symmetry; apply (proj1 (fsub_eq0 K _ _)); exact E).
      assert (D2 : x1 - x2 <> 0) by (intros E; apply Ex; apply (proj1 (fsub_eq0 K _ _)); exact E).
      unfold third. cbv zeta. f_equal. f_equal; field; auto.
  Qed.

  Ltac fb := repeat match goal with
    | H : feqb _ _ = true |- _ => apply (proj1 (feqb_eq K _ _)) in H
    | H : feqb _ _ = false |- _ => apply (proj1 (feqb_neq K _ _)) in H
    end.

  (** ** In-place forms *)
  Lemma j_double_alias p : j_double_in_place a a0 low p = if j_is_zero p then p else j_double a a0 low p.
  Proof. unfold j_double_in_place, j_double. destruct (j_is_zero p); [reflexivity|]. destruct p as [X Y Z]. unfold j_do_double. destruct a0; reflexivity. Qed.
  Lemma j_add_alias p q : j_add_in_place a a0 low p q = j_add a a0 low p q.
  Proof.
    unfold j_add_in_place, j_add. destruct (j_is_zero p) eqn:Ep; [reflexivity|]. destruct (j_is_zero q); [reflexivity|].
    unfold j_do_add, same. destruct (feqb _ _ && feqb _ _); [rewrite j_double_alias, Ep; reflexivity|]. destruct p; reflexivity.
  Qed.
  Lemma j_madd_alias p q : j_madd_in_place a a0 low p q = j_madd a a0 low p q.
  Proof.
    unfold j_madd_in_place, j_madd. destruct (a_is_zero q); [reflexivity|]. destruct (j_is_zero p) eqn:Ep; [reflexivity|].
    unfold j_do_madd, same. destruct (feqb _ _ && feqb _ _); [rewrite j_double_alias, Ep; reflexivity|]. destruct p; reflexivity.
  Qed.
  Lemma p_double_alias p : p_double_in_place a a0 p = if p_is_zero p then p else p_double a a0 p.
  Proof. unfold p_double_in_place, p_double. destruct (p_is_zero p); [reflexivity|]. destruct p as [X Y Z]. reflexivity. Qed.
  Lemma p_add_alias p q : p_add_in_place a a0 p q = p_add a a0 p q.
  Proof.
    unfold p_add_in_place, p_add. destruct (p_is_zero p) eqn:Ep; [reflexivity|]. destruct (p_is_zero q); [reflexivity|].
    unfold p_do_add, same. destruct (feqb _ _ && feqb _ _); [rewrite p_double_alias, Ep; reflexivity|]. destruct p; reflexivity.
  Qed.
  Lemma p_madd_alias p q : p_madd_in_place a a0 p q = p_madd a a0 p q.
  Proof.
    unfold p_madd_in_place, p_madd. destruct (p_is_zero p) eqn:Ep; [reflexivity|]. destruct (a_is_zero q); [reflexivity|].
    unfold p_do_madd, same. destruct (feqb _ _ && feqb _ _); [rewrite p_double_alias, Ep; reflexivity|]. destruct p; reflexivity.
  Qed.
  Lemma x_double_alias p : x_double_in_place a a0 p = if x_is_zero p then p else x_double a a0 p.
  Proof. unfold x_double_in_place, x_double. destruct (x_is_zero p); [reflexivity|]. destruct p. reflexivity. Qed.
  Lemma x_add_alias p q : x_add_in_place a a0 p q = x_add a a0 p q.
  Proof.
    unfold x_add_in_place, x_add. destruct (x_is_zero p) eqn:Ep; [reflexivity|]. destruct (x_is_zero q); [reflexivity|].
    unfold x_do_add, same. destruct (feqb _ _ && feqb _ _); [rewrite x_double_alias, Ep; reflexivity|]. destruct p; reflexivity.
  Qed.
  Lemma x_madd_alias p q : x_madd_in_place a a0 p q = x_madd a a0 p q.
  Proof.
    unfold x_madd_in_place, x_madd. destruct (x_is_zero p) eqn:Ep; [reflexivity|]. destruct (a_is_zero q); [reflexivity|].
    unfold x_do_madd, same. destruct (feqb _ _ && feqb _ _); [rewrite x_double_alias, Ep; reflexivity|]. destruct p; reflexivity.
  Qed.

  (** ** Jacobian *)
  Lemma dbl_neq0 (x : K) : x <> 0 -> x + x <> 0.
  Proof. intros H E. apply H. apply dbl_two. exact E. Qed.
  Lemma plus_self x y : y <> 0 -> plus a (Some (x, y)) (Some (x, y)) = third ((x * x + x * x + x * x + a) / (y + y)) x y x.
  Proof.
    intros Hy. cbn [plus]. rewrite feqb_refl. replace (feqb y (- y)) with false; [reflexivity|].
    symmetry. apply feqb_neq. intros E. apply Hy, opp_self. exact E.
  Qed.
  Lemma plus_self0 x : plus a (Some (x, 0)) (Some (x, 0)) = None.
  Proof. cbn [plus]. rewrite feqb_refl. replace (feqb 0 (- 0)) with true; [reflexivity|]. symmetry. apply feqb_eq. ring. Qed.

  Ltac nz := repeat match goal with |- _ /\ _ => split end; auto; repeat first [assumption | apply dbl_neq0 | apply fmul_neq0]; auto.
  Lemma feqb_t (x y : K) : x = y -> feqb x y = true. Proof. apply feqb_eq. Qed.
  Lemma feqb_f (x y : K) : x <> y -> feqb x y = false. Proof. apply feqb_neq. Qed.
  Lemma div_eq (x y z w : K) : y <> 0 -> w <> 0 -> (x / y = z / w <-> x * w = z * y).
  Proof.
    intros Hy Hw. split; intros E.
    - transitivity (x / y * (y * w)); [field; auto|]. rewrite E. field. auto.
    - transitivity (x * w / (y * w)); [field; auto|]. rewrite E. field. auto.
  Qed.
  Lemma sub_nz (x y : K) : x <> y -> x - y <> 0.
  Proof. intros H E. apply H. apply (proj1 (fsub_eq0 K _ _)). exact E. Qed.
  (** Side conditions about a difference that is known not to vanish. *)
  Ltac nzd H := repeat match goal with |- _ /\ _ => split end; nz; try (let E := fresh in intros E; apply H; rewrite <- E; ring); try (let E := fresh in intros E; apply H; transitivity (- (0 : K)); [rewrite <- E; ring|ring]).

  Implicit Types (p q : jacobian K).
  Lemma jac_zero p : jac p = None <-> j_is_zero p = true.
  Proof. unfold jac, j_is_zero. destruct (feqb (jz p) 0); split; congruence. Qed.
  Lemma jac_double p : a0 = true -> jac (j_double a a0 low p) = plus a (jac p) (jac p).
  Proof.
    intros Ea0. pose proof (Ha Ea0) as Haz. unfold j_double, j_is_zero. destruct p as [X Y Z]. cbn [jz]. unfold jac at 2 3. cbn [jx jy jz].
    destruct (feqb Z 0) eqn:EZ; [unfold jac; cbn [jz j_zero]; rewrite feqb_refl; reflexivity|]. fb.
    unfold j_do_double. rewrite Ea0. cbv zeta. unfold same, set_jx, set_jy, set_jz, dbl, sqr. cbn [jx jy jz].
    unfold jac. cbn [jx jy jz]. destruct (f_dec K Y 0) as [->|HY].
    - rewrite feqb_t by ring. replace (0 / (Z * Z * Z)) with (0 : K) by (field; auto). rewrite plus_self0. reflexivity.
    - rewrite feqb_f by nz. rewrite plus_self.
      2:{ intros E. apply HY. transitivity (Y / (Z * Z * Z) * (Z * Z * Z)); [field; auto|]. rewrite E. ring. }
      unfold third. cbv zeta. rewrite Haz. destruct low; f_equal; f_equal; field; nz.
  Qed.
  Lemma jac_eq p q : j_eqb p q = true <-> jac p = jac q.
  Proof.
    unfold j_eqb, jac, j_is_zero. destruct p as [X Y Z], q as [X' Y' Z']. cbn [jx jy jz].
    destruct (feqb Z 0) eqn:EZ; destruct (feqb Z' 0) eqn:EZ'; try (split; congruence). fb.
    assert (E1 := div_eq X (Z * Z) X' (Z' * Z') ltac:(nz) ltac:(nz)). assert (E2 := div_eq Y (Z * Z * Z) Y' (Z' * Z' * Z') ltac:(nz) ltac:(nz)).
    destruct (feqb (X * (Z' * Z')) (X' * (Z * Z))) eqn:EX; cbn [negb]; fb.
    - rewrite feqb_eq. rewrite E2 || idtac. split; intros H.
      + rewrite (proj2 E1 EX), (proj2 E2); [reflexivity|]. exact H.
      + injection H as H1 H2. apply (proj1 E2). exact H2.
    - split; [discriminate|]. intros H. injection H as H1 H2. exfalso. apply EX. apply (proj1 E1). exact H1.
  Qed.
  Lemma jac_neg p : jac (j_neg p) = minus (jac p).
  Proof.
    unfold jac, j_neg. destruct p as [X Y Z]. cbn [jx jy jz]. destruct (feqb Z 0) eqn:EZ; [reflexivity|]. fb. cbn [minus]. f_equal. f_equal. field. auto.
  Qed.
  Lemma jac_same_test (X1 Y1 Z1 X2 Y2 Z2 : K) : Z1 <> 0 -> Z2 <> 0 ->
    feqb (X1 * sqr Z2) (X2 * sqr Z1) && feqb (Y1 * Z2 * sqr Z2) (Y2 * Z1 * sqr Z1) = j_eqb (mkJ X1 Y1 Z1) (mkJ X2 Y2 Z2).
  Proof.
    intros H1 H2. unfold j_eqb, j_is_zero. cbn [jx jy jz]. rewrite (feqb_f Z1 0), (feqb_f Z2 0) by auto. unfold sqr.
    replace (Y1 * Z2 * (Z2 * Z2)) with (Y1 * (Z2 * Z2 * Z2)) by ring. replace (Y2 * Z1 * (Z1 * Z1)) with (Y2 * (Z1 * Z1 * Z1)) by ring.
    destruct (feqb (X1 * (Z2 * Z2)) (X2 * (Z1 * Z1))); reflexivity.
  Qed.
  Lemma jac_add_gen p q : on_curve a b (jac p) -> on_curve a b (jac q) ->
    (jac p <> jac q -> jac (j_add a a0 low p q) = plus a (jac p) (jac q)) /\
    (jac p = jac q -> jac (j_add a a0 low p q) = jac (j_double a a0 low p)).
  Proof.
    intros Cp Cq. unfold j_add. destruct (j_is_zero p) eqn:Zp.
    { apply jac_zero in Zp. rewrite Zp. split; intros H; [destruct (jac q) as [[? ?]|]; reflexivity|]. unfold j_double.
      apply jac_zero in Zp. rewrite Zp. rewrite <- H. unfold jac. cbn [jz j_zero]. rewrite feqb_refl. reflexivity. }
    destruct (j_is_zero q) eqn:Zq.
    { pose proof Zq as Zq'. apply jac_zero in Zq'. rewrite Zq'. split; intros H; [rewrite plus_none_r; reflexivity|]. apply jac_zero in H. congruence. }
    pose proof (jac_eq p q) as JE. destruct p as [X1 Y1 Z1], q as [X2 Y2 Z2]. unfold j_is_zero in *. cbn [jz] in *. fb.
    unfold j_do_add, same. cbn [jx jy jz]. cbv zeta. rewrite jac_same_test by auto.
    destruct (j_eqb (mkJ X1 Y1 Z1) (mkJ X2 Y2 Z2)) eqn:ET.
    { split; intros H; [|reflexivity]. exfalso. apply H. apply (proj1 JE). reflexivity. }
    split; intros H. 2:{ apply (proj2 JE) in H. discriminate H. } clear ET JE.
    unfold set_jx, set_jy, set_jz, dbl, sqr. cbn [jx jy jz]. rewrite sop2.
    unfold jac in *. cbn [jx jy jz] in *. rewrite !(feqb_f Z1), !(feqb_f Z2) in * by auto. cbn [plus].
    assert (E1 := div_eq X1 (Z1 * Z1) X2 (Z2 * Z2) ltac:(nz) ltac:(nz)).
    destruct (f_dec K (X1 * (Z2 * Z2)) (X2 * (Z1 * Z1))) as [EX|EX].
    - rewrite feqb_t. 2:{ rewrite EX. ring. } rewrite (feqb_t (X1 / (Z1 * Z1))) by (apply (proj2 E1); auto).
      rewrite <- (proj2 E1 EX) in Cq, H. destruct (on_curve_same_x _ _ _ Cp Cq) as [E|E]; [exfalso; apply H; congruence|].
      rewrite (feqb_t (Y1 / (Z1 * Z1 * Z1))) by exact E. reflexivity.
    - pose proof (sub_nz _ _ EX) as D. assert (D' : X2 * (Z1 * Z1) - X1 * (Z2 * Z2) <> 0) by nzd D.
      rewrite feqb_f by nz. rewrite (feqb_f (X1 / (Z1 * Z1))). 2:{ intros E. apply EX. apply (proj1 E1). exact E. }
      unfold third. cbv zeta. f_equal. f_equal; field; nzd D.
  Qed.
  Lemma jac_of_aff (p : affine K) : jac (a_to_j p) = aff p.
  Proof.
    unfold a_to_j, aff, a_is_zero. destruct (feqb (ax p) 0 && feqb (ay p) 0); unfold jac; cbn [jx jy jz j_zero]; [rewrite feqb_refl; reflexivity|].
    rewrite feqb_f by apply f1_neq_0. f_equal. f_equal; field; apply f1_neq_0.
  Qed.
  Lemma aff_zero (p : affine K) : aff p = None <-> a_is_zero p = true.
  Proof. unfold aff, a_is_zero. destruct (feqb (ax p) 0 && feqb (ay p) 0); split; congruence. Qed.
  (** The mixed formula is the general one up to the representative. *)
  Lemma jac_madd_gen p (q : affine K) : j_is_zero p = false -> a_is_zero q = false -> jac (j_madd a a0 low p q) = jac (j_add a a0 low p (a_to_j q)).
  Proof.
    intros Zp Zq. unfold j_madd, j_add, a_to_j. rewrite Zp, Zq.
    assert (Z1 : j_is_zero (mkJ (ax q) (ay q) 1) = false) by (unfold j_is_zero; cbn [jz]; apply feqb_f, f1_neq_0). rewrite Z1.
    destruct p as [X Y Z], q as [x y]. unfold j_do_madd, j_do_add, same. cbn [jx jy jz ax ay]. cbv zeta.
    replace (X * sqr 1) with X by (unfold sqr; ring). replace (Y * 1 * sqr 1) with Y by (unfold sqr; ring).
    destruct (feqb X (x * sqr Z) && feqb Y (y * Z * sqr Z)); [reflexivity|]. unfold set_jx, set_jy, set_jz, dbl, sqr. cbn [jx jy jz].
    unfold jac. cbn [jx jy jz]. rewrite !sop2.
    replace ((Z * 1 + Z * 1) * (x * (Z * Z) - X)) with (Z * (x * (Z * Z) - X) + Z * (x * (Z * Z) - X)) by ring.
    destruct (feqb (Z * (x * (Z * Z) - X) + Z * (x * (Z * Z) - X)) 0); [reflexivity|]. f_equal. f_equal; f_equal; ring.
  Qed.

  (** ** Projective *)
  Lemma proj_zero (p : projective K) : proj p = None <-> p_is_zero p = true.
  Proof. unfold proj, p_is_zero. destruct (feqb (pz p) 0); split; congruence. Qed.
  Lemma proj_double (p : projective K) : proj (p_double a a0 p) = plus a (proj p) (proj p).
  Proof.
    unfold p_double, p_is_zero. destruct p as [X Y Z]. cbn [pz]. unfold proj at 2 3. cbn [px py pz].
    destruct (feqb Z 0) eqn:EZ; [unfold proj; cbn [pz p_zero]; rewrite feqb_refl; reflexivity|]. fb.
    unfold p_do_double. cbv zeta. unfold same, set_px, set_py, set_pz, dbl, sqr. cbn [px py pz].
    assert (Ew : (if a0 then X * X + X * X + X * X else X * X + X * X + X * X + a * (Z * Z)) = X * X + X * X + X * X + a * (Z * Z)).
    { destruct a0; [|reflexivity]. rewrite Ha by reflexivity. ring. }
    rewrite Ew. clear Ew. unfold proj. cbn [px py pz]. destruct (f_dec K Y 0) as [->|HY].
    - rewrite feqb_t by ring. replace (0 / Z) with (0 : K) by (field; auto). rewrite plus_self0. reflexivity.
    - rewrite feqb_f by nz. rewrite plus_self.
      2:{ intros E. apply HY. transitivity (Y / Z * Z); [field; auto|]. rewrite E. ring. }
      unfold third. cbv zeta. f_equal; f_equal; field; nz.
  Qed.
  Lemma proj_eq (p q : projective K) : p_eqb p q = true <-> proj p = proj q.
  Proof.
    unfold p_eqb, proj, p_is_zero. destruct p as [X Y Z], q as [X' Y' Z']. cbn [px py pz].
    destruct (feqb Z 0) eqn:EZ; destruct (feqb Z' 0) eqn:EZ'; try (split; congruence). fb.
    assert (E1 := div_eq X Z X' Z' ltac:(nz) ltac:(nz)). assert (E2 := div_eq Y Z Y' Z' ltac:(nz) ltac:(nz)).
    destruct (feqb (X * Z') (X' * Z)) eqn:EX; cbn [negb]; fb.
    - rewrite feqb_eq. split; intros H.
      + rewrite (proj2 E1 EX), (proj2 E2); [reflexivity|]. exact H.
      + injection H as H1 H2. apply (proj1 E2). exact H2.
    - split; [discriminate|]. intros H. injection H as H1 H2. exfalso. apply EX. apply (proj1 E1). exact H1.
  Qed.
  Lemma proj_neg (p : projective K) : proj (p_neg p) = minus (proj p).
  Proof.
    unfold proj, p_neg. destruct p as [X Y Z]. cbn [px py pz]. destruct (feqb Z 0) eqn:EZ; [reflexivity|]. fb. cbn [minus]. f_equal. f_equal. field. auto.
  Qed.
  Lemma sub_test (x y : K) : feqb (x - y) 0 = feqb y x.
  Proof.
    destruct (feqb y x) eqn:E; fb; [subst; apply feqb_t; ring|]. apply feqb_f. apply sub_nz. auto.
  Qed.
  Lemma proj_add (p q : projective K) : on_curve a b (proj p) -> on_curve a b (proj q) -> proj (p_add a a0 p q) = plus a (proj p) (proj q).
  Proof.
    intros Cp Cq. unfold p_add. destruct (p_is_zero p) eqn:Zp.
    { apply proj_zero in Zp. rewrite Zp. destruct (proj q) as [[? ?]|]; reflexivity. }
    destruct (p_is_zero q) eqn:Zq.
    { apply proj_zero in Zq. rewrite Zq, plus_none_r. reflexivity. }
    pose proof (proj_eq p q) as JE. pose proof (proj_double p) as JD. destruct p as [X1 Y1 Z1], q as [X2 Y2 Z2]. unfold p_is_zero in *. cbn [pz] in *. fb.
    unfold p_do_add, same. cbn [px py pz]. cbv zeta. rewrite !sub_test.
    assert (ET : feqb (Y1 * Z2) (Y2 * Z1) && feqb (X1 * Z2) (X2 * Z1) = p_eqb (mkP X1 Y1 Z1) (mkP X2 Y2 Z2)).
    { unfold p_eqb, p_is_zero. cbn [px py pz]. rewrite (feqb_f Z1 0), (feqb_f Z2 0) by auto. destruct (feqb (X1 * Z2) (X2 * Z1)); cbn [negb]; [apply andb_true_r|apply andb_false_r]. }
    rewrite ET. destruct (p_eqb (mkP X1 Y1 Z1) (mkP X2 Y2 Z2)) eqn:EQ.
    { rewrite JD. rewrite <- (proj1 JE eq_refl). reflexivity. }
    assert (H : proj (mkP X1 Y1 Z1) <> proj (mkP X2 Y2 Z2)) by (intros H; apply (proj2 JE) in H; discriminate H). clear EQ JE JD ET.
    unfold set_px, set_py, set_pz, dbl, sqr. cbn [px py pz]. rewrite sop2.
    unfold proj in *. cbn [px py pz] in *. rewrite !(feqb_f Z1), !(feqb_f Z2) in * by auto. cbn [plus].
    assert (E1 := div_eq X1 Z1 X2 Z2 ltac:(nz) ltac:(nz)).
    destruct (f_dec K (X1 * Z2) (X2 * Z1)) as [EX|EX].
    - rewrite feqb_t. 2:{ rewrite EX. ring. } rewrite (feqb_t (X1 / Z1)) by (apply (proj2 E1); auto).
      rewrite <- (proj2 E1 EX) in Cq, H. destruct (on_curve_same_x _ _ _ Cp Cq) as [E|E]; [exfalso; apply H; congruence|].
      rewrite (feqb_t (Y1 / Z1)) by exact E. reflexivity.
    - pose proof (sub_nz _ _ EX) as D. assert (D' : X2 * Z1 - X1 * Z2 <> 0) by nzd D.
      rewrite feqb_f by nz. rewrite (feqb_f (X1 / Z1)). 2:{ intros E. apply EX. apply (proj1 E1). exact E. }
      unfold third. cbv zeta. f_equal. f_equal; field; nzd D.
  Qed.
  Lemma proj_of_aff (p : affine K) : proj (a_to_p p) = aff p.
  Proof.
    unfold a_to_p, aff, a_is_zero. destruct (feqb (ax p) 0 && feqb (ay p) 0); unfold proj; cbn [px py pz p_zero]; [rewrite feqb_refl; reflexivity|].
    rewrite feqb_f by apply f1_neq_0. f_equal. f_equal; field; apply f1_neq_0.
  Qed.
  Lemma proj_madd_gen (p : projective K) (q : affine K) : proj (p_madd a a0 p q) = proj (p_add a a0 p (a_to_p q)).
  Proof.
    unfold p_madd, p_add, a_to_p. destruct (p_is_zero p) eqn:Zp; [reflexivity|]. destruct (a_is_zero q) eqn:Zq.
    { unfold p_is_zero at 1. cbn [pz p_zero]. rewrite feqb_refl. reflexivity. }
    assert (Z1 : p_is_zero (mkP (ax q) (ay q) 1) = false) by (unfold p_is_zero; cbn [pz]; apply feqb_f, f1_neq_0). rewrite Z1.
    destruct p as [X Y Z], q as [x y]. unfold p_do_madd, p_do_add, same. cbn [px py pz ax ay]. cbv zeta.
    replace (X * 1) with X by ring. replace (Y * 1) with Y by ring. replace (Z * 1) with Z by ring.
    destruct (feqb (y * Z - Y) 0 && feqb (x * Z - X) 0); [reflexivity|]. reflexivity.
  Qed.
  Lemma proj_double_affine (p : affine K) : proj (a_double_p a a0 p) = plus a (aff p) (aff p).
  Proof.
    rewrite <- proj_of_aff, <- proj_double. unfold a_double_p, p_double, a_to_p. destruct (a_is_zero p).
    { unfold p_is_zero. cbn [pz p_zero]. rewrite feqb_refl. reflexivity. }
    assert (Z1 : p_is_zero (mkP (ax p) (ay p) 1) = false) by (unfold p_is_zero; cbn [pz]; apply feqb_f, f1_neq_0). rewrite Z1.
    unfold p_do_double, same, set_px, set_py, set_pz, dbl, sqr. cbn [px py pz]. cbv zeta. destruct p as [x y]. cbn [ax ay].
    f_equal. destruct a0; f_equal; ring.
  Qed.

  (** ** XYZZ *)
  Implicit Types (s t : xyzz K).
  Lemma xy_zero s : xyzz_pt s = None <-> x_is_zero s = true.
  Proof. unfold xyzz_pt, x_is_zero. destruct (feqb (xzz s) 0); split; congruence. Qed.
  Lemma zzz_nz s : xyzz_ok s -> xzz s <> 0 -> xzzz s <> 0.
  Proof. unfold xyzz_ok. intros E H Hz. rewrite Hz in E. assert (X : xzz s * xzz s * xzz s <> 0) by nz. apply X. rewrite E. ring. Qed.
  Lemma ok_x_zero : xyzz_ok (x_zero (K := K)).
  Proof. unfold xyzz_ok, x_zero. cbn [xzz xzzz]. ring. Qed.
  Lemma ok_double s : xyzz_ok s -> xyzz_ok (x_double a a0 s).
  Proof.
    unfold x_double. destruct (x_is_zero s); [intros; apply ok_x_zero|]. unfold xyzz_ok, x_do_double, same, set_xx, set_xy, set_xzz, set_xzzz, dbl, sqr. cbv zeta. cbn [xx xy xzz xzzz].
    destruct s as [X Y ZZ ZZZ]. cbn [xx xy xzz xzzz]. intros E.
    match goal with |- ?l = ?r => transitivity ((ZZ * ZZ * ZZ) * (((Y + Y) * (Y + Y)) * ((Y + Y) * (Y + Y)) * ((Y + Y) * (Y + Y)))); [ring|rewrite E; ring] end.
  Qed.
  Lemma xy_double s : xyzz_ok s -> xyzz_pt (x_double a a0 s) = plus a (xyzz_pt s) (xyzz_pt s).
  Proof.
    intros Hok. unfold x_double, x_is_zero. pose proof (zzz_nz s Hok) as HZ3. unfold xyzz_ok in Hok. destruct s as [X Y ZZ ZZZ]. cbn [xzz xzzz] in *. unfold xyzz_pt at 2 3. cbn [xx xy xzz xzzz].
    destruct (feqb ZZ 0) eqn:EZ; [unfold xyzz_pt; cbn [xzz x_zero]; rewrite feqb_refl; reflexivity|]. fb. specialize (HZ3 EZ).
    unfold x_do_double. cbv zeta. unfold same, set_xx, set_xy, set_xzz, set_xzzz, dbl, sqr. cbn [xx xy xzz xzzz].
    assert (Ew : (if a0 then X * X + (X * X + X * X) else X * X + (X * X + X * X) + a * (ZZ * ZZ)) = X * X + X * X + X * X + a * (ZZ * ZZ)).
    { destruct a0; [rewrite Ha by reflexivity|]; ring. }
    rewrite Ew. clear Ew. rewrite sop2. unfold xyzz_pt. cbn [xx xy xzz xzzz]. destruct (f_dec K Y 0) as [->|HY].
    - rewrite feqb_t by ring. replace (0 / ZZZ) with (0 : K) by (field; auto). rewrite plus_self0. reflexivity.
    - rewrite feqb_f by nz. rewrite plus_self.
      2:{ intros E. apply HY. transitivity (Y / ZZZ * ZZZ); [field; auto|]. rewrite E. ring. }
      (* put zz = z^2, zzz = z^3 *)
      set (z := ZZZ / ZZ). assert (Ez2 : ZZ = z * z). { unfold z. transitivity (ZZ * ZZ * ZZ / (ZZ * ZZ)); [field; auto|]. rewrite Hok. field. auto. }
      assert (Ez3 : ZZZ = z * z * z). { rewrite <- Ez2. unfold z. field. auto. }
      assert (Hz : z <> 0) by (intros E; apply EZ; rewrite Ez2, E; ring). clearbody z. subst ZZ ZZZ.
      unfold third. cbv zeta. f_equal; f_equal; field; nz.
  Qed.
  Lemma xy_eq s t : xyzz_ok s -> xyzz_ok t -> (x_eqb s t = true <-> xyzz_pt s = xyzz_pt t).
  Proof.
    intros Os Ot. pose proof (zzz_nz s Os) as Z3. pose proof (zzz_nz t Ot) as Z3'. clear Os Ot.
    unfold x_eqb, xyzz_pt, x_is_zero. destruct s as [X Y Z W], t as [X' Y' Z' W']. cbn [xx xy xzz xzzz] in *.
    destruct (feqb Z 0) eqn:EZ; destruct (feqb Z' 0) eqn:EZ'; try (split; congruence). fb. specialize (Z3 EZ). specialize (Z3' EZ').
    assert (E1 := div_eq X Z X' Z' ltac:(nz) ltac:(nz)). assert (E2 := div_eq Y W Y' W' ltac:(nz) ltac:(nz)).
    destruct (feqb (X * Z') (X' * Z)) eqn:EX; cbn [negb]; fb.
    - rewrite feqb_eq. split; intros H.
      + rewrite (proj2 E1 EX), (proj2 E2); [reflexivity|]. exact H.
      + injection H as H1 H2. apply (proj1 E2). exact H2.
    - split; [discriminate|]. intros H. injection H as H1 H2. exfalso. apply EX. apply (proj1 E1). exact H1.
  Qed.
  Lemma xy_neg s : xyzz_ok s -> xyzz_pt (x_neg s) = minus (xyzz_pt s) /\ xyzz_ok (x_neg s).
  Proof.
    intros Os. split; [|exact Os]. pose proof (zzz_nz s Os) as Z3. unfold xyzz_pt, x_neg. destruct s as [X Y Z W]. cbn [xx xy xzz xzzz] in *. destruct (feqb Z 0) eqn:EZ; [reflexivity|]. fb. cbn [minus]. f_equal. f_equal. field. auto.
  Qed.
  Lemma xy_add s t : xyzz_ok s -> xyzz_ok t -> on_curve a b (xyzz_pt s) -> on_curve a b (xyzz_pt t) ->
    xyzz_pt (x_add a a0 s t) = plus a (xyzz_pt s) (xyzz_pt t) /\ xyzz_ok (x_add a a0 s t).
  Proof.
    intros Os Ot Cp Cq. unfold x_add. destruct (x_is_zero s) eqn:Zp.
    { apply xy_zero in Zp. rewrite Zp. split; [|exact Ot]. destruct (xyzz_pt t) as [[? ?]|]; reflexivity. }
    destruct (x_is_zero t) eqn:Zq.
    { apply xy_zero in Zq. rewrite Zq, plus_none_r. split; [reflexivity|exact Os]. }
    pose proof (xy_eq s t Os Ot) as JE. pose proof (xy_double s Os) as JD. pose proof (ok_double s Os) as OD. 
    destruct s as [X1 Y1 ZZ1 W1], t as [X2 Y2 ZZ2 W2]. unfold x_is_zero, xyzz_ok in *. cbn [xzz xzzz] in *. fb.
    unfold x_do_add, same. cbn [xx xy xzz xzzz]. cbv zeta. rewrite !sub_test.
    assert (ET : feqb (X1 * ZZ2) (X2 * ZZ1) && feqb (Y1 * W2) (Y2 * W1) = x_eqb (mkX X1 Y1 ZZ1 W1) (mkX X2 Y2 ZZ2 W2)).
    { unfold x_eqb, x_is_zero. cbn [xx xy xzz xzzz]. rewrite (feqb_f ZZ1 0), (feqb_f ZZ2 0) by auto. destruct (feqb (X1 * ZZ2) (X2 * ZZ1)); reflexivity. }
    rewrite ET. destruct (x_eqb (mkX X1 Y1 ZZ1 W1) (mkX X2 Y2 ZZ2 W2)) eqn:EQ.
    { rewrite JD. rewrite <- (proj1 JE eq_refl). split; [reflexivity|exact OD]. }
    assert (H : xyzz_pt (mkX X1 Y1 ZZ1 W1) <> xyzz_pt (mkX X2 Y2 ZZ2 W2)) by (intros H; apply (proj2 JE) in H; discriminate H). clear EQ JE JD ET OD.
    set (z1 := W1 / ZZ1). set (z2 := W2 / ZZ2).
    assert (Ea2 : ZZ1 = z1 * z1). { unfold z1. transitivity (ZZ1 * ZZ1 * ZZ1 / (ZZ1 * ZZ1)); [field; auto|]. rewrite Os. field. auto. }
    assert (Ea3 : W1 = z1 * z1 * z1). { rewrite <- Ea2. unfold z1. field. auto. }
    assert (Eb2 : ZZ2 = z2 * z2). { unfold z2. transitivity (ZZ2 * ZZ2 * ZZ2 / (ZZ2 * ZZ2)); [field; auto|]. rewrite Ot. field. auto. }
    assert (Eb3 : W2 = z2 * z2 * z2). { rewrite <- Eb2. unfold z2. field. auto. }
    assert (H1 : z1 <> 0) by (intros E; apply Zp; rewrite Ea2, E; ring). assert (H2 : z2 <> 0) by (intros E; apply Zq; rewrite Eb2, E; ring).
    clearbody z1 z2. subst ZZ1 W1 ZZ2 W2. unfold set_xx, set_xy, set_xzz, set_xzzz, dbl, sqr. cbn [xx xy xzz xzzz]. rewrite sop2. split; [|ring].
    unfold xyzz_pt in *. cbn [xx xy xzz xzzz] in *. rewrite !(feqb_f (z1 * z1)), !(feqb_f (z2 * z2)) in * by auto. cbn [plus].
    assert (E1 := div_eq X1 (z1 * z1) X2 (z2 * z2) ltac:(nz) ltac:(nz)).
    destruct (f_dec K (X1 * (z2 * z2)) (X2 * (z1 * z1))) as [EX|EX].
    - rewrite feqb_t. 2:{ rewrite EX. ring. } rewrite (feqb_t (X1 / (z1 * z1))) by (apply (proj2 E1); auto).
      rewrite <- (proj2 E1 EX) in Cq, H. destruct (on_curve_same_x _ _ _ Cp Cq) as [E|E]; [exfalso; apply H; congruence|].
      rewrite (feqb_t (Y1 / (z1 * z1 * z1))) by exact E. reflexivity.
    - pose proof (sub_nz _ _ EX) as D. assert (D' : X2 * (z1 * z1) - X1 * (z2 * z2) <> 0) by nzd D.
      rewrite feqb_f by nz. rewrite (feqb_f (X1 / (z1 * z1))). 2:{ intros E. apply EX. apply (proj1 E1). exact E. }
      unfold third. cbv zeta. f_equal. f_equal; field; nzd D.
  Qed.
  Lemma xy_of_aff (p : affine K) : xyzz_pt (a_to_x p) = aff p /\ xyzz_ok (a_to_x p).
  Proof.
    unfold a_to_x, aff, a_is_zero. destruct (feqb (ax p) 0 && feqb (ay p) 0); unfold xyzz_pt, xyzz_ok; cbn [xx xy xzz xzzz x_zero]; [rewrite feqb_refl; split; [reflexivity|ring]|].
    rewrite feqb_f by apply f1_neq_0. split; [f_equal; f_equal; field; apply f1_neq_0|ring].
  Qed.
  Lemma xy_madd_gen s (q : affine K) : x_madd a a0 s q = x_add a a0 s (a_to_x q).
  Proof.
    unfold x_madd, x_add, a_to_x. destruct (x_is_zero s) eqn:Zp; [reflexivity|]. destruct (a_is_zero q) eqn:Zq.
    { unfold x_is_zero at 1. cbn [xzz x_zero]. rewrite feqb_refl. reflexivity. }
    assert (Z1 : x_is_zero (mkX (ax q) (ay q) 1 1) = false) by (unfold x_is_zero; cbn [xzz]; apply feqb_f, f1_neq_0). rewrite Z1.
    destruct s as [X Y Z W], q as [x y]. unfold x_do_madd, x_do_add, same. cbn [xx xy xzz xzzz ax ay]. cbv zeta.
    replace (X * 1) with X by ring. replace (Y * 1) with Y by ring.
    destruct (feqb (x * Z - X) 0 && feqb (y * W - Y) 0); [reflexivity|]. unfold set_xx, set_xy, set_xzz, set_xzzz. cbn [xx xy xzz xzzz].
    replace (Z * 1) with Z by ring. replace (W * 1) with W by ring. reflexivity.
  Qed.
  Lemma xy_double_affine (p : affine K) : xyzz_pt (a_double_x a a0 p) = plus a (aff p) (aff p) /\ xyzz_ok (a_double_x a a0 p).
  Proof.
    destruct (xy_of_aff p) as [E O]. rewrite <- E, <- (xy_double _ O). 
    assert (X : a_double_x a a0 p = x_double a a0 (a_to_x p)).
    { unfold a_double_x, x_double, a_to_x. destruct (a_is_zero p).
      { unfold x_is_zero. cbn [xzz x_zero]. rewrite feqb_refl. reflexivity. }
      assert (Z1 : x_is_zero (mkX (ax p) (ay p) 1 1) = false) by (unfold x_is_zero; cbn [xzz]; apply feqb_f, f1_neq_0). rewrite Z1.
      unfold x_do_double, same, set_xx, set_xy, set_xzz, set_xzzz. cbn [xx xy xzz xzzz]. cbv zeta. destruct p as [x y]. cbn [ax ay].
      replace (a * sqr 1) with a by (unfold sqr; ring). rewrite !sop2. unfold dbl, sqr. destruct a0; f_equal; ring. }
    rewrite X. split; [reflexivity|]. apply ok_double. exact O.
  Qed.
End EC.
