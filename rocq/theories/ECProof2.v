(** Conversions between kinds of points, batch normalisation and curve membership. *)
From Coq Require Import ZArith List Bool Lia Ring Field Field_theory.
From Verif Require Import Field ECModel ECSpec ECProof SemigroupModel SemigroupProof SemigroupExtra ParallelizeModel ParallelizeSpec ParallelizeProof ParallelizeExtra.
Import ListNotations.
Open Scope fld_scope.

Section EC2.
  Variable K : fld.
  Add Field Kec2 : (fld_theory K).
  Variables (a b : K) (a0 low : bool).
  Ltac nz := repeat match goal with |- _ /\ _ => split end; auto; repeat first [assumption | apply fmul_neq0]; auto.
  Lemma fbt (x y : K) : x = y -> feqb x y = true. Proof. apply feqb_eq. Qed.
  Lemma fbf (x y : K) : x <> y -> feqb x y = false. Proof. apply feqb_neq. Qed.

  (** (0, 0) is not a point, as on a curve with b <> 0. *)
  Definition not_origin (P : point K) : Prop := P <> Some (0, 0).
  Lemma curve_not_origin P : b <> 0 -> on_curve a b P -> not_origin P.
  Proof. intros Hb Hc ->. cbn [on_curve] in Hc. apply Hb. transitivity (0 * 0 * 0 + a * 0 + b); [ring|]. rewrite <- Hc. ring. Qed.
  Lemma aff_some (x y : K) : not_origin (Some (x, y)) -> aff (mkA x y) = Some (x, y).
  Proof.
    intros H. unfold aff. cbn [ax ay]. destruct (feqb x 0) eqn:Ex; [|reflexivity]. destruct (feqb y 0) eqn:Ey; [|reflexivity].
    apply feqb_eq in Ex. apply feqb_eq in Ey. subst. exfalso. apply H. reflexivity.
  Qed.
  Lemma aff_zero' : aff (a_zero (K := K)) = None.
  Proof. unfold aff, a_zero. cbn [ax ay]. rewrite feqb_refl. reflexivity. Qed.

  Lemma j_to_a_spec (p : jacobian K) : not_origin (jac p) -> aff (j_to_a p) = jac p.
  Proof.
    unfold j_to_a, jac, j_is_zero. destruct p as [X Y Z]. cbn [jx jy jz]. destruct (feqb Z 0) eqn:EZ; [intros; apply aff_zero'|].
    apply feqb_neq in EZ. intros H. assert (N := aff_some _ _ H). destruct (feqb Z 1) eqn:E1.
    - apply feqb_eq in E1. subst Z. rewrite <- N. f_equal. f_equal; field; auto.
    - rewrite <- N. unfold sqr. cbv zeta. f_equal. f_equal; field; auto.
  Qed.
  Lemma p_to_a_spec (p : projective K) : not_origin (proj p) -> aff (p_to_a p) = proj p.
  Proof.
    unfold p_to_a, proj, p_is_zero. destruct p as [X Y Z]. cbn [px py pz]. destruct (feqb Z 0) eqn:EZ; [intros; apply aff_zero'|].
    apply feqb_neq in EZ. intros H. assert (N := aff_some _ _ H). destruct (feqb Z 1) eqn:E1.
    - apply feqb_eq in E1. subst Z. rewrite <- N. f_equal. f_equal; field; auto.
    - rewrite <- N. unfold sqr. cbv zeta. f_equal. f_equal; field; auto.
  Qed.
  Lemma j_to_p_spec (p : jacobian K) : proj (j_to_p p) = jac p.
  Proof.
    unfold j_to_p, proj, jac. cbv zeta. destruct p as [X Y Z]. cbn [px py pz jx jy jz]. unfold sqr.
    destruct (feqb Z 0) eqn:EZ. { apply feqb_eq in EZ. subst. rewrite fbt by ring. reflexivity. }
    apply feqb_neq in EZ. rewrite fbf by nz. f_equal. f_equal; field; auto.
  Qed.
  Lemma j_to_x_spec (p : jacobian K) : xyzz_pt (j_to_x p) = jac p /\ xyzz_ok (j_to_x p).
  Proof.
    unfold j_to_x, xyzz_pt, xyzz_ok, jac. cbv zeta. destruct p as [X Y Z]. cbn [xx xy xzz xzzz jx jy jz]. unfold sqr. split; [|ring].
    destruct (feqb Z 0) eqn:EZ. { apply feqb_eq in EZ. subst. rewrite fbt by ring. reflexivity. }
    apply feqb_neq in EZ. rewrite fbf by nz. f_equal.
  Qed.
  Lemma p_to_j_spec (p : projective K) : jac (p_to_j p) = proj p.
  Proof.
    unfold p_to_j, proj, jac. cbv zeta. destruct p as [X Y Z]. cbn [px py pz jx jy jz]. unfold sqr.
    destruct (feqb Z 0) eqn:EZ; [reflexivity|].
    apply feqb_neq in EZ. f_equal. f_equal; field; auto.
  Qed.
  Lemma p_to_x_spec (p : projective K) : xyzz_pt (p_to_x p) = proj p /\ xyzz_ok (p_to_x p).
  Proof.
    unfold p_to_x, proj, xyzz_pt, xyzz_ok. cbv zeta. destruct p as [X Y Z]. cbn [px py pz xx xy xzz xzzz]. unfold sqr. split; [|ring].
    destruct (feqb Z 0) eqn:EZ. { apply feqb_eq in EZ. subst. rewrite fbt by ring. reflexivity. }
    apply feqb_neq in EZ. rewrite fbf by nz. f_equal. f_equal; field; auto.
  Qed.

  (** What the shortcut of the XYZZ conversions needs: zz = 1 only with zzz = 1 (zzz = -1 is the other possibility). *)
  Definition unit_ok (s : xyzz K) : Prop := xzz s = 1 -> xzzz s = 1.
  Lemma zz_shape (s : xyzz K) : xyzz_ok s -> xzz s <> 0 -> exists z, z <> 0 /\ xzz s = z * z /\ xzzz s = z * z * z.
  Proof.
    unfold xyzz_ok. destruct s as [X Y Z W]. cbn [xzz xzzz]. intros E H. exists (W / Z).
    assert (E2 : Z = W / Z * (W / Z)). { transitivity (Z * Z * Z / (Z * Z)); [field; auto|]. rewrite E. field. auto. }
    split; [|split; [exact E2|]].
    - intros E0. apply H. rewrite E2, E0. ring.
    - rewrite <- E2. field. auto.
  Qed.
  Lemma unit_two (s : xyzz K) : xyzz_ok s -> xzz s = 1 -> xzzz s = 1 \/ xzzz s = - (1).
  Proof.
    unfold xyzz_ok. intros E H. rewrite H in E. assert (X : (xzzz s - 1) * (xzzz s + 1) = 0).
    { transitivity (xzzz s * xzzz s - 1); [ring|]. rewrite <- E. ring. }
    destruct (fmul_integral K _ _ X) as [Y|Y]; [left|right].
    - apply fsub_eq0. exact Y.
    - apply fsub_eq0. rewrite <- Y. ring.
  Qed.
  Lemma x_to_a_spec (s : xyzz K) : xyzz_ok s -> unit_ok s -> not_origin (xyzz_pt s) -> aff (x_to_a s) = xyzz_pt s.
  Proof.
    intros Os Us. unfold x_to_a, xyzz_pt, x_is_zero. pose proof (zz_shape s Os) as HS. unfold unit_ok in Us. destruct s as [X Y Z W]. cbn [xx xy xzz xzzz] in *. destruct (feqb Z 0) eqn:EZ; [intros; apply aff_zero'|].
    apply feqb_neq in EZ. intros H. assert (N := aff_some _ _ H). destruct (feqb Z 1) eqn:E1.
    - apply feqb_eq in E1. rewrite (Us E1), E1 in *. rewrite <- N. f_equal. f_equal; field; apply f1_neq_0.
    - rewrite <- N. destruct (HS EZ) as (z & Hz & -> & ->). unfold sqr. cbv zeta. f_equal. f_equal; field; auto.
  Qed.
  Lemma x_to_p_spec (s : xyzz K) : xyzz_ok s -> unit_ok s -> proj (x_to_p s) = xyzz_pt s.
  Proof.
    intros Os Us. unfold x_to_p, xyzz_pt, x_is_zero. pose proof (zz_shape s Os) as HS. unfold unit_ok in Us. destruct s as [X Y Z W]. cbn [xx xy xzz xzzz] in *. destruct (feqb Z 0) eqn:EZ; [unfold proj; cbn [pz p_zero]; rewrite feqb_refl; reflexivity|].
    apply feqb_neq in EZ. unfold proj. destruct (feqb Z 1) eqn:E1; cbn [px py pz].
    - apply feqb_eq in E1. rewrite (Us E1), E1. rewrite fbf by apply f1_neq_0. reflexivity.
    - destruct (HS EZ) as (z & Hz & -> & ->). rewrite fbf by nz. f_equal. f_equal; field; auto.
  Qed.
  Lemma x_to_j_spec (s : xyzz K) : xyzz_ok s -> unit_ok s -> jac (x_to_j s) = xyzz_pt s.
  Proof.
    intros Os Us. unfold x_to_j, xyzz_pt, x_is_zero. pose proof (zz_shape s Os) as HS. unfold unit_ok in Us. destruct s as [X Y Z W]. cbn [xx xy xzz xzzz] in *. destruct (feqb Z 0) eqn:EZ; [unfold jac; cbn [jz j_zero]; rewrite feqb_refl; reflexivity|].
    apply feqb_neq in EZ. unfold jac. destruct (feqb Z 1) eqn:E1; cbn [jx jy jz].
    - apply feqb_eq in E1. rewrite (Us E1), E1. rewrite fbf by apply f1_neq_0. f_equal. f_equal; field; apply f1_neq_0.
    - destruct (HS EZ) as (z & Hz & -> & ->). cbv zeta. cbn [jx jy jz]. unfold sqr. rewrite fbf by nz. f_equal. f_equal; field; auto.
  Qed.
  (** With zz = 1 and zzz = -1 the shortcut answers the opposite point. *)
  Lemma x_shortcut_neg (s : xyzz K) : xzz s = 1 -> xzzz s = - (1) ->
    jac (x_to_j s) = minus (xyzz_pt s) /\ proj (x_to_p s) = minus (xyzz_pt s) /\ (not_origin (xyzz_pt s) -> aff (x_to_a s) = minus (xyzz_pt s)).
  Proof.
    intros E1 E2. unfold x_to_j, x_to_p, x_to_a, xyzz_pt, x_is_zero. destruct s as [X Y Z W]. cbn [xx xy xzz xzzz] in *. subst.
    assert (H1 := f1_neq_0 K). assert (Hm : - (1) <> (0 : K)) by (intros E; apply H1; transitivity (- - (1) : K); [ring|rewrite E; ring]).
    rewrite fbf by auto. rewrite feqb_refl. unfold jac, proj. cbn [jx jy jz px py pz]. rewrite !fbf by auto. cbn [minus].
    split; [f_equal; f_equal; field; auto|]. split; [f_equal; f_equal; field; auto|].
    intros H. rewrite aff_some. { f_equal. f_equal; field; auto. }
    intros E. apply H. injection E as -> ->. f_equal. f_equal; field; auto.
  Qed.

  (** ** Batch normalisation *)
  Lemma inverses_spec (l : list K) : inverses l = Some (map (fun x : K => if feqb x 0 then 0 else finv x) l).
  Proof.
    unfold inverses. rewrite (do_batch_inverse_spec K 1 true) by auto. f_equal. apply map_ext. intros x. unfold inv_of.
    destruct (feqb x 0); [reflexivity|ring].
  Qed.
  Section Norm.
    Context {P : Type} (z : P -> K) (one : P -> K -> affine K) (toa : P -> affine K).
    Hypothesis one_spec : forall p, one p (if feqb (z p) 0 then 0 else finv (z p)) = toa p.
    Lemma normalize_serial_spec points out : length points = out -> normalize_serial z one points out = Some (map toa points).
    Proof.
      intros <-. unfold normalize_serial. rewrite Nat.eqb_refl. cbn [negb]. rewrite inverses_spec. f_equal. rewrite map_map.
      induction points as [|p ps IH]; [reflexivity|]. cbn [map combine fst snd]. rewrite one_spec, IH. reflexivity.
    Qed.
    Lemma normalize_bad openmp points out : length points <> out -> normalize openmp z one points out = None.
    Proof. intros H. unfold normalize. replace (Nat.eqb _ _) with false by (symmetry; apply Nat.eqb_neq; exact H). reflexivity. Qed.
    Lemma normalize_spec openmp points :
      match openmp with Some threads => (0 < threads < 128)%Z /\ (2 * Z.of_nat (length points) + threads < 2 ^ 64)%Z | None => True end ->
      normalize openmp z one points (length points) = Some (map toa points).
    Proof.
      intros Ht. unfold normalize. rewrite Nat.eqb_refl. cbn [negb]. destruct openmp as [threads|]; [|apply normalize_serial_spec; reflexivity].
      destruct Ht as [Ht Hb]. cbv zeta. replace (64 <=? threads / 2)%Z with false.
      2:{ symmetry. apply Z.leb_gt. apply Z.div_lt_upper_bound; lia. }
      destruct (2 ^ (threads / 2) <=? Z.of_nat (length points))%Z; [|apply normalize_serial_spec; reflexivity].
      destruct (container_partition threads (Z.of_nat (length points)) None ltac:(lia) ltac:(lia) Hb) as [HT _].
      set (calls := chunk_calls _ _) in *. clearbody calls.
      destruct (pieces_concat calls 0 0 points [] HT eq_refl) as [HC HF]. cbn [app] in HC, HF.
      transitivity (Some (map toa (concat (map (piece points) calls)))); [|rewrite HC; reflexivity].
      rewrite concat_map, map_map. clear HC HT. revert HF.
      induction calls as [|[[i s] n] cs IH]; intros HF; [reflexivity|]. cbn [map] in HF. inversion HF as [|? ? ? ? Hl HF1]. cbn [map all_chunks concat].
      change (slice points (Z.to_nat s) (Z.to_nat n)) with (piece points (i, s, n)).
      rewrite normalize_serial_spec by (apply Nat2Z.inj; transitivity n; [symmetry; exact Hl|rewrite Z2Nat.id; [reflexivity|rewrite Hl; apply Nat2Z.is_nonneg]]). rewrite IH by auto. reflexivity.
    Qed.
  End Norm.
  Lemma j_one_spec (p : jacobian K) : j_normalize1 p (if feqb (jz p) 0 then 0 else finv (jz p)) = j_to_a p.
  Proof.
    unfold j_normalize1, j_to_a, j_is_zero. destruct p as [X Y Z]. cbn [jx jy jz]. destruct (feqb Z 0) eqn:EZ; [rewrite feqb_refl; reflexivity|].
    apply feqb_neq in EZ. rewrite (fbf (finv Z) 0) by (apply finv_neq0; auto). destruct (feqb Z 1) eqn:E1.
    - apply feqb_eq in E1. subst. rewrite fbt; [reflexivity|]. field. auto.
    - apply feqb_neq in E1. rewrite fbf; [reflexivity|]. intros E. apply E1. transitivity (Z * finv Z); [rewrite E; ring|field; auto].
  Qed.
  Lemma p_one_spec (p : projective K) : p_normalize1 p (if feqb (pz p) 0 then 0 else finv (pz p)) = p_to_a p.
  Proof.
    unfold p_normalize1, p_to_a, p_is_zero. destruct p as [X Y Z]. cbn [px py pz]. destruct (feqb Z 0) eqn:EZ; [rewrite feqb_refl; reflexivity|].
    apply feqb_neq in EZ. rewrite (fbf (finv Z) 0) by (apply finv_neq0; auto). destruct (feqb Z 1) eqn:E1.
    - apply feqb_eq in E1. subst. rewrite (fbt (finv 1) 1); [reflexivity|]. symmetry; apply (finv_unique K); ring.
    - apply feqb_neq in E1. rewrite fbf; [reflexivity|]. intros E. apply E1. transitivity (Z * finv Z); [rewrite E; ring|field; auto].
  Qed.
  Lemma x_one_spec (s : xyzz K) : xyzz_ok s -> x_normalize1 s (if feqb (xzzz s) 0 then 0 else finv (xzzz s)) = x_to_a s.
  Proof.
    intros Os. unfold x_normalize1, x_to_a, x_is_zero. pose proof (zz_shape s Os) as HS. destruct s as [X Y Z W]. cbn [xx xy xzz xzzz] in *. destruct (feqb Z 0) eqn:EZ; [reflexivity|].
    apply feqb_neq in EZ. destruct (feqb Z 1) eqn:E1; [reflexivity|]. destruct (HS EZ) as (z & Hz & -> & ->). rewrite fbf by nz. reflexivity.
  Qed.

  (** ** Membership *)
  Hypothesis Ha : a0 = true -> a = 0.
  Lemma feqb_iff (x y : K) : feqb x y = true <-> x = y.
  Proof. split; intros H; [apply feqb_eq in H; exact H|apply fbt; exact H]. Qed.
  Lemma a_on_spec (p : affine K) : a_on_curve a b a0 p = true <-> aff p <> None /\ on_curve a b (aff p).
  Proof.
    unfold a_on_curve, aff, a_is_zero. destruct p as [x y]. cbn [ax ay]. destruct (feqb x 0 && feqb y 0) eqn:E; [split; [discriminate|intros [H _]; congruence]|].
    cbn [on_curve]. cbv zeta. rewrite feqb_iff. unfold sqr.
    replace (if a0 then x * x * x + b else x * x * x + b + a * x) with (x * x * x + a * x + b).
    2:{ destruct a0; [rewrite Ha by reflexivity|]; ring. }
    split; [intros H; split; [discriminate|exact H]|intros [_ H]; exact H].
  Qed.
  Lemma curve_scale (x y l r d : K) : d <> 0 -> y = l / d -> x = r / d -> (l = r <-> y = x).
  Proof. intros Hd -> ->. split; [intros ->; reflexivity|]. intros H. transitivity (l / d * d); [field; auto|]. rewrite H. field. auto. Qed.
  Lemma p_on_spec (p : projective K) : p_on_curve a b a0 p = true <-> proj p <> None /\ on_curve a b (proj p).
  Proof.
    unfold p_on_curve, proj. destruct p as [X Y Z]. cbn [px py pz]. destruct (feqb Z 0) eqn:E; [split; [discriminate|intros [H _]; congruence]|]. apply feqb_neq in E.
    cbn [on_curve]. cbv zeta. rewrite feqb_iff. unfold sqr.
    replace (if a0 then X * X * X + b * (Z * Z * Z) else X * X * X + b * (Z * Z * Z) + a * X * (Z * Z)) with (X * X * X + a * X * (Z * Z) + b * (Z * Z * Z)).
    2:{ destruct a0; [rewrite Ha by reflexivity|]; ring. }
    rewrite (curve_scale (X / Z * (X / Z) * (X / Z) + a * (X / Z) + b) (Y / Z * (Y / Z)) _ _ (Z * Z * Z)) by first [solve [nz]|solve [field; nz]].
    split; [intros H; split; [discriminate|exact H]|intros [_ H]; exact H].
  Qed.
  Lemma j_on_spec (p : jacobian K) : j_on_curve a b a0 p = true <-> jac p <> None /\ on_curve a b (jac p).
  Proof.
    unfold j_on_curve, jac. destruct p as [X Y Z]. cbn [jx jy jz]. destruct (feqb Z 0) eqn:E; [split; [discriminate|intros [H _]; congruence]|]. apply feqb_neq in E.
    cbn [on_curve]. cbv zeta. rewrite feqb_iff. unfold sqr.
    match goal with |- (_ = (if a0 then _ else ?r)) <-> _ => replace (if a0 then X * X * X + b * (Z * Z * Z * (Z * Z * Z)) else r) with r end.
    2:{ destruct a0; [rewrite Ha by reflexivity|]; ring. }
    rewrite (curve_scale (X / (Z * Z) * (X / (Z * Z)) * (X / (Z * Z)) + a * (X / (Z * Z)) + b) (Y / (Z * Z * Z) * (Y / (Z * Z * Z))) _ _ (Z * Z * Z * (Z * Z * Z))) by first [solve [nz]|solve [field; nz]].
    split; [intros H; split; [discriminate|exact H]|intros [_ H]; exact H].
  Qed.
  Lemma x_on_spec (s : xyzz K) : xyzz_ok s -> (x_on_curve a b a0 s = true <-> xyzz_pt s <> None /\ on_curve a b (xyzz_pt s)).
  Proof.
    intros Os. unfold x_on_curve, xyzz_pt. pose proof (zz_shape s Os) as HS. unfold xyzz_ok in Os. destruct s as [X Y Z W]. cbn [xx xy xzz xzzz] in *.
    destruct (feqb Z 0) eqn:E.
    { apply feqb_eq in E. subst. rewrite fbt; [split; [discriminate|intros [H _]; congruence]|]. 
      destruct (f_dec K W 0) as [H|H]; [exact H|]. exfalso. assert (X1 : W * W <> 0) by nz. apply X1. rewrite <- Os. ring. }
    apply feqb_neq in E. destruct (HS E) as (z & Hz & -> & ->). rewrite fbf by nz.
    cbn [on_curve]. cbv zeta. rewrite feqb_iff. unfold sqr.
    match goal with |- (_ = (if a0 then ?l else ?r)) <-> _ => replace (if a0 then l else r) with r end.
    2:{ destruct a0; [rewrite Ha by reflexivity|]; ring. }
    rewrite (curve_scale (X / (z * z) * (X / (z * z)) * (X / (z * z)) + a * (X / (z * z)) + b) (Y / (z * z * z) * (Y / (z * z * z))) _ _ (z * z * z * (z * z * z))) by first [solve [nz]|solve [field; nz]].
    split; [intros H; split; [discriminate|exact H]|intros [_ H]; exact H].
  Qed.
End EC2.
