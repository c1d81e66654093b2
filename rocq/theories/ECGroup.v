(** The chord-and-tangent law of a nonsingular curve is a commutative group law: associativity. *)
From Coq Require Import ZArith List Bool Lia Ring Field Field_theory.
From Verif Require Import Field ECModel ECSpec ECProof.
Import ListNotations.
Open Scope fld_scope.

Section Assoc.
  Variable K : fld.
  Add Field Kas : (fld_theory K).
  Variables (a b : K).
  Hypothesis two : (1 + 1 : K) <> 0.
  (** No singular point. *)
  Hypothesis smooth : forall x : K, x * x * x + a * x + b = 0 -> x * x + x * x + x * x + a <> 0.
  Notation on x y := (on_curve a b (Some (x, y))).

  Lemma eq0_sub (x y : K) : x - y = 0 -> x = y.
  Proof. apply (proj1 (fsub_eq0 K x y)). Qed.
  Lemma cancel (d x y : K) : d <> 0 -> d * x = d * y -> x = y.
  Proof. intros H E. apply (fmul_cancel_l K d); auto. Qed.

  (** [l] is the slope of the line through both points, the tangent when they are equal. *)
  Definition slp (x1 y1 x2 y2 l : K) : Prop :=
    y1 - y2 = l * (x1 - x2) /\ l * (y1 + y2) = x1 * x1 + x1 * x2 + x2 * x2 + a.
  Definition opposite (x1 y1 x2 y2 : K) : Prop := x1 = x2 /\ y1 = - y2.
  Lemma opposite_dec x1 y1 x2 y2 : opposite x1 y1 x2 y2 \/ ~ opposite x1 y1 x2 y2.
  Proof. unfold opposite. destruct (f_dec K x1 x2), (f_dec K y1 (- y2)); tauto. Qed.
  Lemma plus_opposite x1 y1 x2 y2 : opposite x1 y1 x2 y2 -> plus a (Some (x1, y1)) (Some (x2, y2)) = None.
  Proof. intros [-> ->]. cbn [plus]. rewrite !feqb_refl. reflexivity. Qed.

  Lemma slope_exists x1 y1 x2 y2 : on x1 y1 -> on x2 y2 -> ~ opposite x1 y1 x2 y2 -> exists l, slp x1 y1 x2 y2 l.
  Proof.
    intros H1 H2 Ho. destruct (f_dec K x1 x2) as [<-|Hx].
    - destruct (on_curve_same_x K a b _ _ _ H1 H2) as [<-|E]; [|exfalso; apply Ho; split; auto].
      assert (Hy : y1 + y1 <> 0). { intros E. apply Ho. split; [reflexivity|]. transitivity (y1 + y1 - y1); [ring|]. rewrite E. ring. }
      exists ((x1 * x1 + x1 * x1 + x1 * x1 + a) / (y1 + y1)). split; [ring|field; auto].
    - assert (D : x1 - x2 <> 0) by (apply sub_nz; auto). exists ((y1 - y2) / (x1 - x2)). split; [field; auto|].
      cbn [on_curve] in H1, H2. apply (cancel (x1 - x2)); [auto|].
      transitivity (y1 * y1 - y2 * y2); [field; auto|]. rewrite H1, H2. ring.
  Qed.
  Lemma slope_third x1 y1 x2 y2 l : ~ opposite x1 y1 x2 y2 -> slp x1 y1 x2 y2 l -> plus a (Some (x1, y1)) (Some (x2, y2)) = third l x1 y1 x2.
  Proof.
    intros Ho [E1 E2]. cbn [plus]. destruct (f_dec K x1 x2) as [<-|Hx].
    - assert (y1 = y2) by (apply eq0_sub; rewrite E1; ring). subst y2. rewrite (feqb_t K x1 x1) by reflexivity.
      assert (Hy : y1 <> - y1) by (intros E; apply Ho; split; auto). rewrite feqb_f by auto.
      assert (Hy2 : y1 + y1 <> 0). { intros E. apply Hy. transitivity (y1 + y1 - y1); [ring|]. rewrite E. ring. }
      f_equal. transitivity (l * (y1 + y1) / (y1 + y1)); [rewrite E2; field; auto|field; auto].
    - rewrite feqb_f by auto. assert (D : x1 - x2 <> 0) by (apply sub_nz; auto). assert (D' : x2 - x1 <> 0) by (apply sub_nz; auto).
      f_equal. transitivity ((y1 - y2) / (x1 - x2)); [field; auto|]. rewrite E1. field. auto.
  Qed.
  Lemma slp_sym x1 y1 x2 y2 l : slp x1 y1 x2 y2 l -> slp x2 y2 x1 y1 l.
  Proof.
    intros [E1 E2]. split.
    - transitivity (- (y1 - y2)); [ring|]. rewrite E1. ring.
    - transitivity (l * (y1 + y2)); [ring|]. rewrite E2. ring.
  Qed.
  (** The mirrored third point and a mirrored first one: the line has the opposite slope. *)
  Lemma slp_third x1 y1 x2 y2 l : slp x1 y1 x2 y2 l ->
    let x3 := l * l - x1 - x2 in let y3 := l * (x1 - x3) - y1 in slp x1 (- y1) x3 y3 (- l).
  Proof.
    intros [E1 E2] x3 y3. split; [unfold y3; ring|].
    assert (Ea : a = l * (y1 + y2) - x1 * x1 - x1 * x2 - x2 * x2) by (rewrite E2; ring).
    assert (Ey : y2 = y1 - l * (x1 - x2)) by (rewrite <- E1; ring).
    rewrite Ea, Ey. unfold y3, x3. ring.
  Qed.

  Lemma slp_minus x1 y1 x2 y2 l : slp x1 y1 x2 y2 l -> slp x1 (- y1) x2 (- y2) (- l).
  Proof.
    intros [E1 E2]. split.
    - transitivity (- (y1 - y2)); [ring|]. rewrite E1. ring.
    - transitivity (l * (y1 + y2)); [ring|]. rewrite E2. ring.
  Qed.
  Lemma opposite_minus x1 y1 x2 y2 : opposite x1 (- y1) x2 (- y2) <-> opposite x1 y1 x2 y2.
  Proof.
    unfold opposite. split; intros [-> E]; (split; [reflexivity|]).
    - transitivity (- - y1); [ring|]. rewrite E. ring.
    - rewrite E. ring.
  Qed.
  Lemma minus_plus P Q : on_curve a b P -> on_curve a b Q -> minus (plus a P Q) = plus a (minus P) (minus Q).
  Proof.
    destruct P as [[x1 y1]|]; [|reflexivity]. destruct Q as [[x2 y2]|]; [|reflexivity]. intros H1 H2. cbn [minus].
    destruct (opposite_dec x1 y1 x2 y2) as [O|O].
    { rewrite !plus_opposite; [reflexivity| |exact O]. apply opposite_minus. exact O. }
    destruct (slope_exists _ _ _ _ H1 H2 O) as [l Hl]. rewrite (slope_third _ _ _ _ l O Hl).
    rewrite (slope_third x1 (- y1) x2 (- y2) (- l)); [|intros X; apply O, opposite_minus, X|apply slp_minus; exact Hl].
    unfold third. cbv zeta. cbn [minus]. f_equal. f_equal; ring.
  Qed.
  Lemma minus_minus (P : point K) : minus (minus P) = P.
  Proof. destruct P as [[x y]|]; [|reflexivity]. cbn [minus]. f_equal. f_equal. ring. Qed.

  (** P + Q = P only when Q is infinity. *)
  Lemma no_fixpoint x1 y1 x2 y2 l : on x1 y1 -> slp x1 y1 x2 y2 l -> third l x1 y1 x2 <> Some (x1, y1).
  Proof.
    intros H1 Hl E. pose proof (slp_third _ _ _ _ _ Hl) as S. cbv zeta in S. unfold third in E. cbv zeta in E. injection E as Ex Ey.
    rewrite Ex in S, Ey. rewrite Ey in S. destruct S as [S1 S2].
    assert (Y0 : y1 = 0). { apply (opp_self K two). transitivity (l * (x1 - x1) - y1); [symmetry; exact Ey|ring]. }
    subst y1. apply (smooth x1).
    - cbn [on_curve] in H1. rewrite <- H1. ring.
    - rewrite <- S2. ring.
  Qed.
  (** -P + (P + Q) = Q *)
  Lemma plus_cancel P Q : on_curve a b P -> on_curve a b Q -> plus a (minus P) (plus a P Q) = Q.
  Proof.
    intros HP HQ. destruct P as [[x1 y1]|]; [|reflexivity]. destruct Q as [[x2 y2]|].
    2:{ rewrite plus_none_r. cbn [minus]. rewrite plus_opposite; [reflexivity|]. split; reflexivity. }
    destruct (opposite_dec x1 y1 x2 y2) as [O|O].
    { rewrite plus_opposite by exact O. cbn [minus]. rewrite plus_none_r. destruct O as [-> ->]. f_equal. f_equal. ring. }
    destruct (slope_exists _ _ _ _ HP HQ O) as [l Hl]. rewrite (slope_third _ _ _ _ l O Hl).
    pose proof (no_fixpoint x1 y1 x2 y2 l HP Hl) as NF. pose proof (slp_third _ _ _ _ _ Hl) as S. cbv zeta in S.
    unfold third in *. cbv zeta in *. cbn [minus].
    rewrite (slope_third x1 (- y1) _ _ (- l)); [| |exact S].
    - destruct Hl as [E1 _]. unfold third. cbv zeta. f_equal. assert (Ey : y2 = y1 - l * (x1 - x2)) by (rewrite <- E1; ring). rewrite Ey. f_equal; ring.
    - intros [Ox Oy]. apply NF. rewrite <- Ox. f_equal. f_equal.
      assert (Q1 : l * (x1 - x1) - y1 = - y1) by ring. rewrite <- Ox in Oy. 
      transitivity (- - (l * (x1 - x1) - y1)); [ring|]. rewrite <- Oy. ring.
  Qed.

  (** When nothing is opposite to anything, by one computation: the slopes satisfy n + l = k + m. *)
  Lemma third_slope x1 y1 x2 y2 x3 y3 l m n : slp x1 y1 x2 y2 l -> slp x2 y2 x3 y3 m ->
    let x12 := l * l - x1 - x2 in let y12 := l * (x1 - x12) - y1 in
    ~ opposite x12 y12 x3 y3 -> slp x12 y12 x3 y3 n -> (n + l) * (l - m) = x1 - x3.
  Proof.
    intros [L1 L2] [M1 M2] x12 y12 Ho [N1 N2].
    assert (Ey1 : y1 = y2 + l * (x1 - x2)) by (rewrite <- L1; ring). 
    assert (Ey3 : y3 = y2 - m * (x2 - x3)) by (rewrite <- M1; ring).
    assert (Rel : (y2 + y2) * (l - m) = m * m * (x3 - x2) - l * l * (x1 - x2) + (x1 - x3) * (x1 + x2 + x3)).
    { assert (E : l * (y1 + y2) - m * (y2 + y3) = x1 * x1 + x1 * x2 - x2 * x3 - x3 * x3) by (rewrite L2, M2; ring).
      rewrite Ey1, Ey3 in E. 
      transitivity (l * (y2 + l * (x1 - x2) + y2) - m * (y2 + (y2 - m * (x2 - x3))) - l * l * (x1 - x2) + m * m * (x3 - x2)); [ring|].
      rewrite E. ring. }
    destruct (f_dec K x12 x3) as [ED|ED].
    - (* the same point: a tangent *)
      assert (EY : y12 = y3). { apply eq0_sub. rewrite N1, ED. ring. }
      assert (Y3 : y3 + y3 <> 0).
      { intros E. apply Ho. split; [exact ED|]. rewrite EY. transitivity (y3 + y3 - y3); [ring|]. rewrite E. ring. }
      assert (E12 : y12 = - y2 - l * (x3 - x2)). { unfold y12. rewrite ED, Ey1. ring. }
      assert (T : y3 + y3 = (m - l) * (x3 - x2)).
      { transitivity (y12 + y3); [rewrite EY; reflexivity|]. rewrite E12, Ey3. ring. }
      assert (Sy : y2 + y3 = - l * (x3 - x2)). { rewrite <- EY, E12. ring. }
      assert (Ea : a = - l * m * (x3 - x2) - x2 * x2 - x2 * x3 - x3 * x3).
      { transitivity (m * (y2 + y3) - x2 * x2 - x2 * x3 - x3 * x3); [rewrite M2; ring|]. rewrite Sy. ring. }
      assert (Ex1 : x1 = l * l - x2 - x3) by (rewrite <- ED; unfold x12; ring).
      rewrite ED, EY in N2. apply (cancel (y3 + y3)); [exact Y3|].
      transitivity (n * (y3 + y3) * (l - m) + (y3 + y3) * l * (l - m)); [ring|]. rewrite N2, Ea, T, Ex1. ring.
    - assert (D : x3 - x12 <> 0) by (apply sub_nz; auto). apply (cancel (x3 - x12)); [exact D|].
      transitivity ((y3 - y12) * (l - m) + (x3 - x12) * l * (l - m)).
      { transitivity (n * (x3 - x12) * (l - m) + (x3 - x12) * l * (l - m)); [ring|]. f_equal. f_equal.
        transitivity (- (n * (x12 - x3))); [ring|]. rewrite <- N1. ring. }
      unfold y12. rewrite Ey3, Ey1.
      transitivity ((y2 + y2) * (l - m) + (m * (x3 - x2) - l * (x1 - x12) + l * (x1 - x2)) * (l - m) + (x3 - x12) * l * (l - m)); [ring|].
      rewrite Rel. unfold x12. ring.
  Qed.
  Lemma assoc_generic x1 y1 x2 y2 x3 y3 :
    on x1 y1 -> on x2 y2 -> on x3 y3 -> ~ opposite x1 y1 x2 y2 -> ~ opposite x2 y2 x3 y3 ->
    plus a (Some (x1, y1)) (Some (x2, y2)) <> minus (Some (x3, y3)) ->
    plus a (Some (x2, y2)) (Some (x3, y3)) <> minus (Some (x1, y1)) ->
    plus a (plus a (Some (x1, y1)) (Some (x2, y2))) (Some (x3, y3)) = plus a (Some (x1, y1)) (plus a (Some (x2, y2)) (Some (x3, y3))).
  Proof.
    intros H1 H2 H3 O12 O23 N12 N23.
    destruct (slope_exists _ _ _ _ H1 H2 O12) as [l Hl]. destruct (slope_exists _ _ _ _ H2 H3 O23) as [m Hm].
    pose proof (plus_on_curve K a b two _ _ H1 H2) as C12. pose proof (plus_on_curve K a b two _ _ H2 H3) as C23.
    destruct (f_dec K l m) as [<-|Hlm].
    { (* three points on one line *)
      destruct Hl as [L1 L2], Hm as [M1 M2].
      assert (E : (x1 - x3) * (l * l - x1 - x2 - x3) = 0).
      { transitivity (l * (l * (x1 - x2)) + l * (l * (x2 - x3)) - (x1 - x3) * (x1 + x2 + x3)); [ring|]. rewrite <- L1, <- M1.
        transitivity (l * (y1 + y2) - l * (y2 + y3) - (x1 - x3) * (x1 + x2 + x3)); [ring|]. rewrite L2, M2. ring. }
      destruct (fmul_integral K _ _ E) as [E'|E'].
      - apply eq0_sub in E'. subst x3. assert (y1 = y3).
        { apply eq0_sub. transitivity ((y1 - y2) + (y2 - y3)); [ring|]. rewrite L1, M1. ring. }
        subst y3. rewrite (plus_comm K a b (Some (x2, y2)) (Some (x1, y1)) H2 H1). apply (plus_comm K a b); [exact C12|exact H1].
      - exfalso. apply N12. rewrite (slope_third _ _ _ _ l O12 (conj L1 L2)). unfold third. cbv zeta. cbn [minus].
        assert (Ex : l * l - x1 - x2 = x3) by (apply eq0_sub; exact E'). rewrite Ex. f_equal. f_equal.
        transitivity (l * (x1 - x2) + l * (x2 - x3) - y1); [ring|]. rewrite <- L1, <- M1. ring. }
    rewrite (slope_third _ _ _ _ l O12 Hl), (slope_third _ _ _ _ m O23 Hm) in *.
    unfold third in C12, C23, N12, N23 |- *. cbv zeta in C12, C23, N12, N23 |- *. cbn [minus] in N12, N23.
    set (x12 := l * l - x1 - x2) in *. set (y12 := l * (x1 - x12) - y1) in *.
    set (x23 := m * m - x2 - x3) in *. set (y23 := m * (x2 - x23) - y2) in *.
    assert (OA : ~ opposite x12 y12 x3 y3). { intros [E1 E2]. apply N12. rewrite E1, E2. reflexivity. }
    assert (OB : ~ opposite x1 y1 x23 y23).
    { intros [E1 E2]. apply N23. rewrite <- E1. f_equal. f_equal. rewrite E2. ring. }
    destruct (slope_exists _ _ _ _ C12 H3 OA) as [n Hn]. destruct (slope_exists _ _ _ _ H1 C23 OB) as [k Hk].
    rewrite (slope_third _ _ _ _ n OA Hn), (slope_third _ _ _ _ k OB Hk).
    pose proof (third_slope x1 y1 x2 y2 x3 y3 l m n Hl Hm OA Hn) as En.
    assert (Ek : (k + m) * (m - l) = x3 - x1).
    { (* the same with the points read backwards *)
      assert (Y : m * (x3 - x23) - y3 = y23).
      { unfold y23. destruct Hm as [M1 _]. transitivity (m * (x2 - x23) - m * (x2 - x3) - y3); [ring|]. rewrite <- M1. ring. }
      assert (X : m * m - x3 - x2 = x23) by (unfold x23; ring).
      pose proof (third_slope x3 y3 x2 y2 x1 y1 m l k (slp_sym _ _ _ _ _ Hm) (slp_sym _ _ _ _ _ Hl)) as T. cbv zeta in T. rewrite X, Y in T.
      apply T.
      - intros [E1 E2]. apply OB. split; [auto|]. rewrite E2. ring.
      - apply slp_sym. exact Hk. }
    assert (D : l - m <> 0) by (apply sub_nz; auto).
    assert (NK : n = k + m - l).
    { assert (E : n + l = k + m). { apply (cancel (l - m)); [exact D|]. transitivity ((n + l) * (l - m)); [ring|]. rewrite En. transitivity (- (x3 - x1)); [ring|]. rewrite <- Ek. ring. }
      transitivity (n + l - l); [ring|]. rewrite E. ring. }
    assert (E1 : x1 = x3 + (k + m) * (l - m)).
    { transitivity (x3 - (x3 - x1)); [ring|]. rewrite <- Ek. ring. }
    unfold third. cbv zeta.
    assert (EX : n * n - x12 - x3 = k * k - x1 - x23). { rewrite NK. unfold x12, x23. rewrite E1. ring. }
    f_equal. f_equal; [exact EX|]. rewrite EX.
    assert (Y12 : y12 = n * (x12 - x3) + y3). { destruct Hn as [N1 _]. rewrite <- N1. ring. }
    rewrite Y12. assert (Y31 : y3 = y1 - l * (x1 - x2) - m * (x2 - x3)).
    { destruct Hl as [L1 _], Hm as [M1 _]. rewrite <- L1, <- M1. ring. }
    rewrite Y31. rewrite NK. unfold x12, x23. rewrite E1. ring.
  Qed.

  Theorem plus_assoc P Q R : on_curve a b P -> on_curve a b Q -> on_curve a b R -> plus a (plus a P Q) R = plus a P (plus a Q R).
  Proof.
    intros HP HQ HR. destruct P as [[x1 y1]|]; [|reflexivity]. destruct Q as [[x2 y2]|]; [|rewrite plus_none_r; reflexivity].
    destruct R as [[x3 y3]|]; [|rewrite !plus_none_r; reflexivity].
    pose proof (minus_on_curve K a b _ HP) as MP. pose proof (minus_on_curve K a b _ HQ) as MQ. pose proof (minus_on_curve K a b _ HR) as MR.
    destruct (opposite_dec x1 y1 x2 y2) as [O12|O12].
    { rewrite (plus_opposite _ _ _ _ O12). change (plus a None (Some (x3, y3))) with (Some (x3, y3)). assert (E : Some (x1, y1) = minus (Some (x2, y2))) by (destruct O12 as [-> ->]; reflexivity).
      rewrite E. symmetry. apply plus_cancel; auto. }
    destruct (opposite_dec x2 y2 x3 y3) as [O23|O23].
    { rewrite (plus_opposite _ _ _ _ O23), plus_none_r. assert (E : Some (x3, y3) = minus (Some (x2, y2))) by (destruct O23 as [-> ->]; cbn [minus]; f_equal; f_equal; ring).
      rewrite E. rewrite (plus_comm K a b _ (minus _)); [|apply plus_on_curve; auto|exact MQ].
      rewrite (plus_comm K a b (Some (x1, y1))); auto. apply plus_cancel; auto. }
    assert (DP : forall P Q : point K, P = Q \/ P <> Q).
    { intros [[u v]|] [[u' v']|]; try (right; congruence); [|left; reflexivity].
      destruct (f_dec K u u') as [->|H]; [|right; congruence]. destruct (f_dec K v v') as [->|H]; [left; reflexivity|right; congruence]. }
    destruct (DP (plus a (Some (x1, y1)) (Some (x2, y2))) (minus (Some (x3, y3)))) as [E|N12].
    { rewrite E. assert (ER : Some (x3, y3) = plus a (minus (Some (x2, y2))) (minus (Some (x1, y1)))).
      { rewrite <- minus_plus by auto. rewrite (plus_comm K a b (Some (x2, y2))) by auto. rewrite E, minus_minus. reflexivity. }
      rewrite (plus_comm K a b (minus _)) by auto. rewrite plus_minus.
      pose proof (plus_cancel _ _ MQ MP) as C. rewrite minus_minus in C. rewrite ER, C, plus_minus. reflexivity. }
    destruct (DP (plus a (Some (x2, y2)) (Some (x3, y3))) (minus (Some (x1, y1)))) as [E|N23].
    { rewrite E. rewrite plus_minus. assert (EP : Some (x1, y1) = plus a (minus (Some (x2, y2))) (minus (Some (x3, y3)))).
      { rewrite <- minus_plus by auto. rewrite E, minus_minus. reflexivity. }
      assert (E12 : plus a (Some (x1, y1)) (Some (x2, y2)) = minus (Some (x3, y3))).
      { rewrite (plus_comm K a b (Some (x1, y1))) by auto. pose proof (plus_cancel _ _ MQ MR) as C. rewrite minus_minus in C. rewrite EP. exact C. }
      rewrite E12. rewrite (plus_comm K a b) by auto. apply plus_minus. }
    apply assoc_generic; auto.
  Qed.
End Assoc.

(** The usual condition on the discriminant. *)
Section Disc.
Variable K : fld.
Add Field Kdisc : (fld_theory K).
Lemma smooth_of_discriminant (a b : K) :
  fnat 4 * (a * a * a) + fnat 27 * (b * b) <> 0 -> forall x : K, x * x * x + a * x + b = 0 -> x * x + x * x + x * x + a <> 0.
Proof.
  intros HD x Hx E. apply HD. assert (Ea : a = - (x * x + x * x + x * x)) by (transitivity (x * x + x * x + x * x + a - (x * x + x * x + x * x)); [ring|rewrite E; ring]).
  assert (Eb : b = - (x * x * x) - a * x) by (transitivity (x * x * x + a * x + b - x * x * x - a * x); [ring|rewrite Hx; ring]).
  rewrite Eb, Ea. cbn [fnat]. ring.
Qed.
End Disc.
