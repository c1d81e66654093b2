(** The property statements about curve points, assembled. *)
From Coq Require Import ZArith List Bool Lia Ring Field Field_theory.
From Verif Require Import Field ParallelizeModel SemigroupModel ECModel ECSpec ECProof ECProof2.
Import ListNotations.
Open Scope fld_scope.

Section EC3.
  Variable K : fld.
  Add Field Kec3 : (fld_theory K).
  Variables (a b : K) (a0 low : bool).
  Hypothesis two : (1 + 1 : K) <> 0.
  Hypothesis Ha : a0 = true -> a = 0.

  (** ** Jacobian *)
  Lemma jac_add_any (p q : jacobian K) : a0 = true \/ jac p <> jac q -> on_curve a b (jac p) -> on_curve a b (jac q) ->
    jac (j_add a a0 low p q) = plus a (jac p) (jac q).
  Proof.
    intros H Cp Cq. destruct (jac_add_gen K a b a0 low two p q Cp Cq) as [H1 H2].
    destruct (j_eqb p q) eqn:E.
    - apply (jac_eq K) in E. destruct H as [H|H]; [|contradiction]. rewrite (H2 E), <- E. apply jac_double; auto.
    - apply H1. intros X. apply (jac_eq K) in X. congruence.
  Qed.
  Lemma jac_madd_any (p : jacobian K) (q : affine K) : a0 = true \/ jac p <> aff q -> on_curve a b (jac p) -> on_curve a b (aff q) ->
    jac (j_madd a a0 low p q) = plus a (jac p) (aff q).
  Proof.
    intros H Cp Cq. destruct (a_is_zero q) eqn:Zq.
    { unfold j_madd. rewrite Zq. apply aff_zero in Zq. rewrite Zq, plus_none_r. reflexivity. }
    destruct (j_is_zero p) eqn:Zp.
    { unfold j_madd. rewrite Zq, Zp. apply jac_zero in Zp. rewrite Zp, jac_of_aff. cbn [plus]. destruct (aff q) as [[? ?]|]; reflexivity. }
    rewrite jac_madd_gen by auto. rewrite <- (jac_of_aff K q) in *. apply jac_add_any; auto.
  Qed.
  Lemma jac_double_zero (p : jacobian K) : jac (j_double_in_place a a0 low p) = jac (j_double a a0 low p).
  Proof.
    rewrite j_double_alias by auto. destruct (j_is_zero p) eqn:Z; [|reflexivity]. unfold j_double. rewrite Z. apply jac_zero in Z. rewrite Z.
    symmetry. apply jac_zero. unfold j_is_zero, j_zero. cbn [jz]. apply feqb_refl.
  Qed.
  Lemma proj_double_zero (p : projective K) : proj (p_double_in_place a a0 p) = proj (p_double a a0 p).
  Proof.
    rewrite p_double_alias by auto. destruct (p_is_zero p) eqn:Z; [|reflexivity]. unfold p_double. rewrite Z. apply proj_zero in Z. rewrite Z.
    symmetry. apply proj_zero. unfold p_is_zero, p_zero. cbn [pz]. apply feqb_refl.
  Qed.
  Lemma xy_double_zero (p : xyzz K) : xyzz_pt (x_double_in_place a a0 p) = xyzz_pt (x_double a a0 p).
  Proof.
    rewrite x_double_alias by auto. destruct (x_is_zero p) eqn:Z; [|reflexivity]. unfold x_double. rewrite Z. apply xy_zero in Z. rewrite Z.
    symmetry. apply xy_zero. unfold x_is_zero, x_zero. cbn [xzz]. apply feqb_refl.
  Qed.

  Lemma c46_double (p : jacobian K) : a0 = true ->
    jac (j_double a a0 low p) = plus a (jac p) (jac p) /\ jac (j_double_in_place a a0 low p) = plus a (jac p) (jac p).
  Proof. intros H. rewrite jac_double_zero. split; apply jac_double; auto. Qed.
  Lemma c46_add (p q : jacobian K) : a0 = true \/ jac p <> jac q -> on_curve a b (jac p) -> on_curve a b (jac q) ->
    jac (j_add a a0 low p q) = plus a (jac p) (jac q) /\ j_add_in_place a a0 low p q = j_add a a0 low p q /\ on_curve a b (jac (j_add a a0 low p q)).
  Proof.
    intros H Cp Cq. assert (E := jac_add_any p q H Cp Cq). split; [exact E|]. split; [apply j_add_alias; auto|]. rewrite E. apply plus_on_curve; auto.
  Qed.
  Lemma c46_madd (p : jacobian K) (q : affine K) : a0 = true \/ jac p <> aff q -> on_curve a b (jac p) -> on_curve a b (aff q) ->
    jac (j_madd a a0 low p q) = plus a (jac p) (aff q) /\ j_madd_in_place a a0 low p q = j_madd a a0 low p q /\ on_curve a b (jac (j_madd a a0 low p q)).
  Proof.
    intros H Cp Cq. assert (E := jac_madd_any p q H Cp Cq). split; [exact E|]. split; [apply j_madd_alias; auto|]. rewrite E. apply plus_on_curve; auto.
  Qed.
  Lemma c46_affine (p q : affine K) (r : jacobian K) : a0 = true \/ (aff p <> aff q /\ aff p <> jac r) -> on_curve a b (aff p) -> on_curve a b (aff q) -> on_curve a b (jac r) ->
    jac (a_add a a0 low p q) = plus a (aff p) (aff q) /\ jac (aj_add a a0 low p r) = plus a (aff p) (jac r).
  Proof.
    intros H Cp Cq Cr. unfold a_add, aj_add. rewrite <- (jac_of_aff K p), <- (jac_of_aff K q) in *. split; apply jac_add_any; tauto.
  Qed.
  Lemma c46_other (p q : jacobian K) :
    (j_eqb p q = true <-> jac p = jac q) /\ jac (j_neg p) = minus (jac p) /\ (j_is_zero p = true <-> jac p = None) /\ jac (j_zero (K := K)) = None.
  Proof.
    split; [apply jac_eq|]. split; [apply jac_neg|]. split; [symmetry; apply jac_zero|]. apply jac_zero. unfold j_is_zero, j_zero. cbn [jz]. apply feqb_refl.
  Qed.

  (** ** The doubling for a <> 0 sets z to 2 (Y + Z) instead of 2 Y Z. *)
  Lemma jac_double_any (p : jacobian K) : a0 = false -> jz p <> 0 -> jy p + jz p = jy p * jz p -> jac (j_double a a0 low p) = plus a (jac p) (jac p).
  Proof.
    intros -> HZ HYZ. unfold j_double, j_is_zero. destruct p as [X Y Z]. cbn [jx jy jz] in *. unfold jac at 2 3. cbn [jx jy jz]. rewrite (proj2 (feqb_neq K Z 0) HZ).
    unfold j_do_double, same, set_jx, set_jy, set_jz, dbl, sqr. cbn [jx jy jz]. rewrite HYZ. cbv zeta.
    destruct (f_dec K Y 0) as [->|HY].
    { exfalso. apply HZ. transitivity (0 + Z); [ring|]. rewrite HYZ. ring. }
    assert (HYY := dbl_neq0 K two Y HY).
    unfold jac. cbn [jx jy jz]. rewrite (proj2 (feqb_neq K _ 0)).
    2:{ apply dbl_neq0; auto. apply fmul_neq0; auto. }
    rewrite (plus_self K a two).
    2:{ intros E. apply HY. transitivity (Y / (Z * Z * Z) * (Z * Z * Z)); [field; auto|]. rewrite E. ring. }
    assert (HW : Y * Z + Y * Z <> 0) by (apply dbl_neq0; auto; apply fmul_neq0; auto).
    unfold third. cbv zeta. f_equal; f_equal; field; repeat split; auto.
  Qed.

  (** ** Projective *)
  Lemma c47_double (p : projective K) (q : affine K) :
    proj (p_double a a0 p) = plus a (proj p) (proj p) /\ proj (p_double_in_place a a0 p) = plus a (proj p) (proj p) /\
    proj (a_double_p a a0 q) = plus a (aff q) (aff q).
  Proof. rewrite proj_double_zero. split; [|split]; [apply proj_double; auto ..|apply proj_double_affine; auto]. Qed.
  Lemma c47_add (p q : projective K) : on_curve a b (proj p) -> on_curve a b (proj q) ->
    proj (p_add a a0 p q) = plus a (proj p) (proj q) /\ p_add_in_place a a0 p q = p_add a a0 p q /\ on_curve a b (proj (p_add a a0 p q)).
  Proof.
    intros Cp Cq. assert (E := proj_add K a b a0 two Ha p q Cp Cq). split; [exact E|]. split; [apply p_add_alias; auto|]. rewrite E. apply plus_on_curve; auto.
  Qed.
  Lemma c47_madd (p : projective K) (q : affine K) : on_curve a b (proj p) -> on_curve a b (aff q) ->
    proj (p_madd a a0 p q) = plus a (proj p) (aff q) /\ p_madd_in_place a a0 p q = p_madd a a0 p q /\ on_curve a b (proj (p_madd a a0 p q)).
  Proof.
    intros Cp Cq. assert (E : proj (p_madd a a0 p q) = plus a (proj p) (aff q)).
    { rewrite proj_madd_gen. rewrite <- (proj_of_aff K q) in *. apply proj_add with (b := b); auto. }
    split; [exact E|]. split; [apply p_madd_alias; auto|]. rewrite E. apply plus_on_curve; auto.
  Qed.
  Lemma c47_other (p q : projective K) :
    (p_eqb p q = true <-> proj p = proj q) /\ proj (p_neg p) = minus (proj p) /\ (p_is_zero p = true <-> proj p = None) /\ proj (p_zero (K := K)) = None.
  Proof.
    split; [apply proj_eq|]. split; [apply proj_neg|]. split; [symmetry; apply proj_zero|]. apply proj_zero. unfold p_is_zero, p_zero. cbn [pz]. apply feqb_refl.
  Qed.

  (** ** XYZZ *)
  Lemma c48_double (s : xyzz K) (q : affine K) : xyzz_ok s ->
    xyzz_pt (x_double a a0 s) = plus a (xyzz_pt s) (xyzz_pt s) /\ xyzz_pt (x_double_in_place a a0 s) = plus a (xyzz_pt s) (xyzz_pt s) /\
    xyzz_ok (x_double a a0 s) /\ xyzz_ok (x_double_in_place a a0 s) /\
    xyzz_pt (a_double_x a a0 q) = plus a (aff q) (aff q) /\ xyzz_ok (a_double_x a a0 q).
  Proof.
    intros O. assert (E := xy_double K a a0 two Ha s O). split; [exact E|]. split; [rewrite xy_double_zero; exact E|].
    split; [apply ok_double; exact O|]. split; [|apply xy_double_affine; auto].
    rewrite x_double_alias by auto. destruct (x_is_zero s); [exact O|]. apply ok_double. exact O.
  Qed.
  Lemma c48_add (s t : xyzz K) : xyzz_ok s -> xyzz_ok t -> on_curve a b (xyzz_pt s) -> on_curve a b (xyzz_pt t) ->
    xyzz_pt (x_add a a0 s t) = plus a (xyzz_pt s) (xyzz_pt t) /\ x_add_in_place a a0 s t = x_add a a0 s t /\
    xyzz_ok (x_add a a0 s t) /\ on_curve a b (xyzz_pt (x_add a a0 s t)).
  Proof.
    intros Os Ot Cs Ct. destruct (xy_add K a b a0 two Ha s t Os Ot Cs Ct) as [E O]. split; [exact E|]. split; [apply x_add_alias; auto|]. split; [exact O|].
    rewrite E. apply plus_on_curve; auto.
  Qed.
  Lemma c48_madd (s : xyzz K) (q : affine K) : xyzz_ok s -> on_curve a b (xyzz_pt s) -> on_curve a b (aff q) ->
    xyzz_pt (x_madd a a0 s q) = plus a (xyzz_pt s) (aff q) /\ x_madd_in_place a a0 s q = x_madd a a0 s q /\
    xyzz_ok (x_madd a a0 s q) /\ on_curve a b (xyzz_pt (x_madd a a0 s q)).
  Proof.
    intros Os Cs Cq. rewrite x_madd_alias by auto; rewrite xy_madd_gen. destruct (xy_of_aff K q) as [Eq Oq]. rewrite <- Eq in *.
    destruct (xy_add K a b a0 two Ha s (a_to_x q) Os Oq Cs Cq) as [E O]. split; [exact E|]. split; [reflexivity|]. split; [exact O|].
    rewrite E. apply plus_on_curve; auto.
  Qed.
  Lemma c48_other (s t : xyzz K) : xyzz_ok s -> xyzz_ok t ->
    (x_eqb s t = true <-> xyzz_pt s = xyzz_pt t) /\ xyzz_pt (x_neg s) = minus (xyzz_pt s) /\ xyzz_ok (x_neg s) /\
    (x_is_zero s = true <-> xyzz_pt s = None) /\ xyzz_pt (x_zero (K := K)) = None /\ xyzz_ok (x_zero (K := K)).
  Proof.
    intros Os Ot. destruct (xy_neg K s Os) as [E O]. split; [apply xy_eq; auto|]. split; [exact E|]. split; [exact O|]. split; [symmetry; apply xy_zero|].
    split; [|apply ok_x_zero]. apply xy_zero. unfold x_is_zero, x_zero. cbn [xzz]. apply feqb_refl.
  Qed.

  (** ** Conversions *)
  Lemma c49_from_affine (p : affine K) :
    jac (a_to_j p) = aff p /\ proj (a_to_p p) = aff p /\ xyzz_pt (a_to_x p) = aff p /\ xyzz_ok (a_to_x p).
  Proof. destruct (xy_of_aff K p). split; [apply jac_of_aff|]. split; [apply proj_of_aff|]. auto. Qed.
  Lemma c49_between (p : jacobian K) (q : projective K) :
    proj (j_to_p p) = jac p /\ xyzz_pt (j_to_x p) = jac p /\ xyzz_ok (j_to_x p) /\
    jac (p_to_j q) = proj q /\ xyzz_pt (p_to_x q) = proj q /\ xyzz_ok (p_to_x q).
  Proof.
    destruct (j_to_x_spec K p), (p_to_x_spec K q). split; [apply j_to_p_spec|]. split; [auto|]. split; [auto|]. split; [apply p_to_j_spec|]. auto.
  Qed.
  Lemma c49_to_affine (p : jacobian K) (q : projective K) : b <> 0 -> on_curve a b (jac p) -> on_curve a b (proj q) ->
    aff (j_to_a p) = jac p /\ aff (p_to_a q) = proj q.
  Proof. intros Hb Cp Cq. split; [apply j_to_a_spec|apply p_to_a_spec]; apply (curve_not_origin K a b); auto. Qed.
  Lemma c49_normalize (ps : list (jacobian K)) (qs : list (projective K)) openmp :
    threads_ok openmp (length ps) -> threads_ok openmp (length qs) ->
    normalize openmp (@jz K) j_normalize1 ps (length ps) = Some (map j_to_a ps) /\
    normalize openmp (@pz K) p_normalize1 qs (length qs) = Some (map p_to_a qs).
  Proof.
    intros H1 H2. split; apply (normalize_spec K); auto; [apply j_one_spec|apply p_one_spec].
  Qed.
  Lemma c49_sizes (ps : list (jacobian K)) (qs : list (projective K)) openmp n : length ps <> n -> length qs <> n ->
    normalize openmp (@jz K) j_normalize1 ps n = None /\ normalize openmp (@pz K) p_normalize1 qs n = None.
  Proof. intros H1 H2. split; apply normalize_bad; auto. Qed.

  Lemma c85_conversions (s : xyzz K) : xyzz_ok s -> (xzz s = 1 -> xzzz s = 1) ->
    jac (x_to_j s) = xyzz_pt s /\ proj (x_to_p s) = xyzz_pt s /\ (b <> 0 -> on_curve a b (xyzz_pt s) -> aff (x_to_a s) = xyzz_pt s).
  Proof.
    intros O U. split; [apply x_to_j_spec; auto|]. split; [apply x_to_p_spec; auto|]. intros Hb C. apply x_to_a_spec; auto. apply (curve_not_origin K a b); auto.
  Qed.
  Lemma c85_shortcut (s : xyzz K) : xyzz_ok s -> xzz s = 1 -> xzzz s <> 1 ->
    jac (x_to_j s) = minus (xyzz_pt s) /\ proj (x_to_p s) = minus (xyzz_pt s) /\ (b <> 0 -> on_curve a b (xyzz_pt s) -> aff (x_to_a s) = minus (xyzz_pt s)).
  Proof.
    intros O H1 H2. destruct (unit_two K s O H1) as [E|E]; [contradiction|]. destruct (x_shortcut_neg K s H1 E) as (A & B & C).
    split; [exact A|]. split; [exact B|]. intros Hb Cv. apply C. apply (curve_not_origin K a b); auto.
  Qed.
  Lemma c85_normalize (ss : list (xyzz K)) openmp : threads_ok openmp (length ss) -> Forall xyzz_ok ss ->
    normalize openmp (@xzzz K) x_normalize1 ss (length ss) = Some (map x_to_a ss).
  Proof.
    intros H HF. 
    set (tame := fun s : xyzz K => if feqb (xzz s * xzz s * xzz s) (xzzz s * xzzz s) then s else x_zero).
    assert (TO : forall s, xyzz_ok (tame s)).
    { intros s. unfold tame. destruct (feqb _ _) eqn:E; [apply (proj1 (feqb_eq K _ _)) in E; exact E|apply ok_x_zero]. }
    assert (TI : map tame ss = ss).
    { clear H. induction HF as [|s l Hs HF IH]; [reflexivity|]. cbn [map]. rewrite IH. f_equal. unfold tame. unfold xyzz_ok in Hs.
      rewrite (proj2 (feqb_eq K _ _) Hs). reflexivity. }
    assert (N := normalize_spec K (fun s => xzzz (tame s)) (fun s => x_normalize1 (tame s)) (fun s => x_to_a (tame s)) (fun s => x_one_spec K (tame s) (TO s)) openmp ss H).
    transitivity (normalize openmp (@xzzz K) x_normalize1 (map tame ss) (length (map tame ss))); [rewrite TI; reflexivity|].
    rewrite map_length. transitivity (Some (map x_to_a (map tame ss))); [|rewrite TI; reflexivity]. rewrite map_map. rewrite <- N. clear N.
    assert (S : forall l out, normalize_serial (@xzzz K) x_normalize1 (map tame l) out = normalize_serial (fun s => xzzz (tame s)) (fun s => x_normalize1 (tame s)) l out).
    { intros l out. unfold normalize_serial. rewrite map_length, map_map. destruct (negb _); [reflexivity|]. destruct (inverses _) as [zi|]; [|reflexivity]. f_equal.
      revert zi. induction l as [|x l IH]; intros [|z zi]; cbn [map combine]; try reflexivity. rewrite IH. reflexivity. }
    unfold normalize. rewrite map_length. destruct (negb _); [reflexivity|]. destruct openmp as [threads|]; [|apply S]. cbv zeta.
    destruct (_ <=? _)%Z; [reflexivity|]. destruct (_ <=? _)%Z; [|apply S]. f_equal. apply map_ext. intros [[i s] n]. rewrite <- S. f_equal.
    unfold slice. rewrite skipn_map, firstn_map. reflexivity.
  Qed.

  (** ** Membership *)
  Lemma c86_on_curve (p : affine K) (q : projective K) (r : jacobian K) (s : xyzz K) : xyzz_ok s ->
    (a_on_curve a b a0 p = true <-> aff p <> None /\ on_curve a b (aff p)) /\
    (p_on_curve a b a0 q = true <-> proj q <> None /\ on_curve a b (proj q)) /\
    (j_on_curve a b a0 r = true <-> jac r <> None /\ on_curve a b (jac r)) /\
    (x_on_curve a b a0 s = true <-> xyzz_pt s <> None /\ on_curve a b (xyzz_pt s)).
  Proof.
    intros O. split; [apply a_on_spec; auto|]. split; [apply p_on_spec; auto|]. split; [apply j_on_spec; auto|apply x_on_spec; auto].
  Qed.
  Lemma c86_affine_equality (p q : affine K) : (a_eqb p q = true <-> aff p = aff q) /\ aff (a_neg p) = minus (aff p) /\ (a_is_zero p = true <-> aff p = None).
  Proof.
    split; [|split; [|symmetry; apply aff_zero]].
    - unfold a_eqb, aff. fold (a_is_zero p) (a_is_zero q). destruct (a_is_zero p), (a_is_zero q); try (split; congruence).
      rewrite andb_true_iff, !(feqb_eq K). destruct p as [x1 y1], q as [x2 y2]. cbn [ax ay]. split; [intros [-> ->]; reflexivity|intros H; injection H as -> ->; auto].
    - unfold aff, a_neg. cbn [ax ay]. assert (E : feqb (- ay p) 0 = feqb (ay p) 0).
      { destruct (feqb (ay p) 0) eqn:E.
        - apply (proj1 (feqb_eq K _ _)) in E. apply (proj2 (feqb_eq K _ _)). rewrite E. ring.
        - apply (proj1 (feqb_neq K _ _)) in E. apply (proj2 (feqb_neq K _ _)). intros X. apply E. transitivity (- - ay p); [ring|]. rewrite X. ring. }
      rewrite E. destruct (_ && _); reflexivity.
  Qed.
End EC3.
