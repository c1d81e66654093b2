(** Sparse polynomials. *)
From Coq Require Import ZArith List Bool Arith Lia Ring Field Field_theory Permutation Sorted.
From Verif Require Import Field BigIntModel BigIntSpec ParallelizeModel ParallelizeProof ParallelizeExtra SemigroupModel SemigroupSpec SemigroupProof SemigroupExtra PolyModel PolySpec PolyProof PolyProof2 PolyProof3.
Import ListNotations.
Open Scope fld_scope.

Section P.
  Variable K : fld.
  Add Field KfP5 : (fld_theory K).
  Notation sp := (list (Z * K)).

  (** an inductive form of canonicity *)
  Fixpoint sc (lo : Z) (s : sp) : Prop :=
    match s with [] => True | t :: r => (lo < fst t < 2 ^ 64)%Z /\ snd t <> 0 /\ sc (fst t) r end.
  Lemma sc_weaken lo lo' s : (lo' <= lo)%Z -> sc lo s -> sc lo' s.
  Proof. destruct s; [auto|]. cbn. intuition lia. Qed.
  Lemma sc_above : forall s lo, sc lo s -> Forall (fun t => (lo < fst t < 2 ^ 64)%Z /\ snd t <> 0) s.
  Proof.
    induction s as [|t s IH]; intros lo H; constructor; cbn in H; destruct H as (H1 & H2 & H3); [auto|].
    eapply Forall_impl; [|apply (IH _ H3)]. cbn. intuition lia.
  Qed.
  Lemma sc_iff s : scanonical s <-> sc (-1) s.
  Proof.
    split.
    - intros [H1 H2]. assert (G : forall lo, Forall (fun t => (lo < fst t)%Z) s -> sc lo s).
      { revert H1 H2. induction s as [|t s IH]; intros H1 H2 lo Hlo; [exact I|]. cbn [map] in H1.
        inversion H1 as [|? ? S1 S2]; subst. inversion H2 as [|? ? [T1 T2] T3]; subst. inversion Hlo; subst.
        cbn. split; [lia|]. split; [exact T2|]. apply IH; auto. exact (proj1 (Forall_map fst (fun x => (fst t < x)%Z) s) S2). }
      apply G. eapply Forall_impl; [|exact H2]. cbn. intuition lia.
    - intros H. assert (G : forall lo, sc lo s -> StronglySorted Z.lt (map fst s)).
      { clear H. induction s as [|t s IH]; intros lo H; constructor; cbn in H; destruct H as (H1 & H2 & H3); [eapply IH; eauto|].
        apply Forall_map. eapply Forall_impl; [|apply (sc_above _ _ H3)]. cbn. intuition lia. }
      split; [eapply G; eauto|]. eapply Forall_impl; [|apply (sc_above _ _ H)]. cbn. intuition lia.
  Qed.
  Lemma scoeff_cons t (s : sp) d : scoeff (t :: s) d = (if (fst t =? Z.of_nat d)%Z then snd t else 0) + scoeff s d.
  Proof. reflexivity. Qed.
  Lemma scoeff_nil d : scoeff ([] : sp) d = 0. Proof. reflexivity. Qed.
  Lemma scoeff_app (a b : sp) d : scoeff (a ++ b) d = scoeff a d + scoeff b d.
  Proof. unfold scoeff. rewrite map_app. apply fsum_app. Qed.
  Lemma scoeff_absent (s : sp) d : Forall (fun t => fst t <> Z.of_nat d) s -> scoeff s d = 0.
  Proof.
    intros H. apply fsum_map_zero. intros t Hin. rewrite Forall_forall in H. specialize (H t Hin).
    destruct (Z.eqb_spec (fst t) (Z.of_nat d)); [contradiction|reflexivity].
  Qed.
  Lemma scoeff_low s lo d : sc lo s -> (Z.of_nat d <= lo)%Z -> scoeff s d = 0.
  Proof. intros H Hd. apply scoeff_absent. eapply Forall_impl; [|apply (sc_above _ _ H)]. cbn. intuition lia. Qed.
  Lemma scoeff_perm (a b : sp) d : Permutation a b -> scoeff a d = scoeff b d.
  Proof. intros H. apply fsum_perm, Permutation_map, H. Qed.

  Lemma sp_at_spec : forall s lo d, sc lo s -> sp_at s (Z.of_nat d) = scoeff s d.
  Proof.
    induction s as [|t s IH]; intros lo d H; [reflexivity|]. cbn [sc] in H. destruct H as (H1 & H2 & H3).
    rewrite scoeff_cons. unfold sp_at. cbn [find]. destruct (Z.leb_spec (Z.of_nat d) (fst t)) as [Hle|Hgt].
    - destruct (Z.eqb_spec (fst t) (Z.of_nat d)); rewrite (scoeff_low s (fst t)) by (auto; lia); ring.
    - fold (sp_at s (Z.of_nat d)). rewrite (IH _ d H3). destruct (Z.eqb_spec (fst t) (Z.of_nat d)); [lia|]. ring.
  Qed.
  Lemma sc_unique : forall a b lo, sc lo a -> sc lo b -> (-1 <= lo)%Z -> (forall d, scoeff a d = scoeff b d) -> a = b.
  Proof.
    assert (G : forall t r lo, sc lo (t :: r) -> (-1 <= lo)%Z -> scoeff (t :: r) (Z.to_nat (fst t)) = snd t).
    { intros t r lo H Hl. cbn [sc] in H. destruct H as (H1 & H2 & H3). rewrite scoeff_cons, Z2Nat.id, Z.eqb_refl by lia.
      rewrite (scoeff_low r (fst t)) by (auto; lia). ring. }
    induction a as [|t a IH]; intros [|u b] lo Ha Hb Hlo H; auto.
    - exfalso. specialize (H (Z.to_nat (fst u))). rewrite (G u b lo Hb Hlo) in H. cbn [sc] in Hb. apply (proj1 (proj2 Hb)). rewrite <- H. reflexivity.
    - exfalso. specialize (H (Z.to_nat (fst t))). rewrite (G t a lo Ha Hlo) in H. cbn [sc] in Ha. apply (proj1 (proj2 Ha)). rewrite H. reflexivity.
    - pose proof (G t a lo Ha Hlo) as Gt. pose proof (G u b lo Hb Hlo) as Gu.
      destruct Ha as (A1 & A2 & A3), Hb as (B1 & B2 & B3).
      assert (Hf : fst t = fst u).
      { destruct (Z.lt_trichotomy (fst t) (fst u)) as [Hlt|[Heq|Hgt]]; [|exact Heq|].
        - exfalso. apply A2. rewrite <- Gt, H. apply (scoeff_low _ (fst t)); [|lia]. cbn [sc]. split; [lia|]. split; [exact B2|exact B3].
        - exfalso. apply B2. rewrite <- Gu, <- H. apply (scoeff_low _ (fst u)); [|lia]. cbn [sc]. split; [lia|]. split; [exact A2|exact A3]. }
      assert (Hs : snd t = snd u) by (rewrite <- Gt, <- Gu, Hf; apply H).
      destruct t as [dt ct], u as [du cu]. cbn [fst snd] in *. subst. f_equal.
      apply (IH b du); auto; [lia|]. intros d. specialize (H d). rewrite !scoeff_cons in H. cbn [fst snd] in H.
      destruct (du =? Z.of_nat d)%Z.
      + replace (scoeff a d) with (cu + scoeff a d - cu) by ring. rewrite H. ring.
      + replace (scoeff a d) with (0 + scoeff a d) by ring. rewrite H. ring.
  Qed.
  Lemma scanonical_unique (a b : sp) : scanonical a -> scanonical b -> (forall d, scoeff a d = scoeff b d) -> a = b.
  Proof. intros Ha Hb. apply (sc_unique a b (-1)); [apply sc_iff; auto|apply sc_iff; auto|lia]. Qed.
  Lemma srep_unique (a b : sp) f : srepresents a f -> srepresents b f -> a = b.
  Proof. intros [Ha Ea] [Hb Eb]. apply scanonical_unique; auto. intros. rewrite Ea, Eb. reflexivity. Qed.

  (** ** degrees *)
  Lemma sp_degree_app (s : sp) t : sp_degree (s ++ [t]) = fst t.
  Proof. unfold sp_degree. rewrite last_last. destruct s; reflexivity. Qed.
  Lemma sc_le_degree : forall s lo, sc lo s -> Forall (fun t => (fst t <= sp_degree s)%Z) s /\ (s <> [] -> lo < sp_degree s < 2 ^ 64)%Z.
  Proof.
    induction s as [|t s IH]; intros lo H; [split; [constructor|congruence]|]. cbn [sc] in H. destruct H as (H1 & H2 & H3).
    destruct (IH _ H3) as [I1 I2]. destruct s as [|u s].
    - cbn. split; [constructor; [lia|constructor]|]. intros _. lia.
    - specialize (I2 ltac:(discriminate)). change (sp_degree (t :: u :: s)) with (sp_degree (u :: s)).
      split; [constructor; [lia|exact I1]|]. intros _. lia.
  Qed.
  Lemma sc_lead : forall s lo, (-1 <= lo)%Z -> sc lo s -> s <> [] -> sp_leading s = scoeff s (Z.to_nat (sp_degree s)) /\ sp_leading s <> 0.
  Proof.
    induction s as [|t s IH]; intros lo Hlo H Hn; [congruence|]. cbn [sc] in H. destruct H as (H1 & H2 & H3).
    rewrite scoeff_cons. destruct s as [|u s].
    - cbn [sp_leading sp_degree last fst snd]. rewrite Z2Nat.id, Z.eqb_refl, scoeff_nil by lia. split; [ring|exact H2].
    - change (sp_degree (t :: u :: s)) with (sp_degree (u :: s)). change (sp_leading (t :: u :: s)) with (sp_leading (u :: s)).
      destruct (IH (fst t) ltac:(lia) H3 ltac:(discriminate)) as [I1 I2]. destruct (sc_le_degree _ _ H3) as [_ D]. specialize (D ltac:(discriminate)).
      split; [|exact I2]. rewrite <- I1. rewrite Z2Nat.id by lia. destruct (Z.eqb_spec (fst t) (sp_degree (u :: s))); [lia|]. ring.
  Qed.
  Lemma scoeff_over s lo d : sc lo s -> (sp_degree s < Z.of_nat d)%Z -> scoeff s d = 0.
  Proof.
    intros H Hd. apply scoeff_absent. eapply Forall_impl; [|apply (proj1 (sc_le_degree _ _ H))]. cbn. intros. lia.
  Qed.
  Lemma sp_make_id md (s : sp) : (sp_degree s <= md)%Z -> sp_make md false s = Some s.
  Proof. intros H. unfold sp_make. rewrite (proj2 (Z.leb_le _ _) H). reflexivity. Qed.
  Lemma sp_degree_bound (s : sp) md : (0 <= md)%Z -> Forall (fun t => (fst t <= md)%Z) s -> (sp_degree s <= md)%Z.
  Proof.
    intros Hm H. destruct s as [|t s]; [cbn; lia|]. destruct (exists_last (l := t :: s)) as (s' & u & E); [discriminate|].
    rewrite E in *. rewrite sp_degree_app. apply Forall_app in H. destruct H as [_ H]. inversion H; subst. assumption.
  Qed.

  (** ** Add and subtract *)
  Definition sg (neg : bool) (x : K) : K := if neg then - x else x.
  Lemma sgn_fst neg (t : Z * K) : fst (sgn neg t) = fst t. Proof. destruct neg; reflexivity. Qed.
  Lemma sgn_snd neg (t : Z * K) : snd (sgn neg t) = sg neg (snd t). Proof. destruct neg; reflexivity. Qed.
  Lemma sg_neq0 neg x : x <> 0 -> sg neg x <> 0.
  Proof. destruct neg; cbn; auto. intros H E. apply H. apply (proj1 (fopp_eq0 K x)). exact E. Qed.
  Lemma sc_map_sgn neg : forall s lo, sc lo s -> sc lo (map (sgn neg) s).
  Proof. induction s as [|t s IH]; intros lo; [auto|]. cbn [map sc]. rewrite sgn_fst, sgn_snd. intros (H1 & H2 & H3). split; [exact H1|]. split; [apply sg_neq0; exact H2|apply IH; exact H3]. Qed.
  Lemma scoeff_map_sgn neg (s : sp) d : scoeff (map (sgn neg) s) d = sg neg (scoeff s d).
  Proof.
    induction s as [|t s IH]; [rewrite scoeff_nil; destruct neg; cbn; ring|]. cbn [map]. rewrite !scoeff_cons, sgn_fst, sgn_snd, IH.
    destruct (fst t =? Z.of_nat d)%Z, neg; cbn [sg]; ring.
  Qed.
  Lemma merge_cons neg x (a : sp) y (b : sp) : sp_merge neg (x :: a) (y :: b) =
    if (fst x <? fst y)%Z then x :: sp_merge neg a (y :: b)
    else if (fst y <? fst x)%Z then sgn neg y :: sp_merge neg (x :: a) b
    else let c := if neg then snd x - snd y else snd x + snd y in
         if iszero c then sp_merge neg a b else (fst x, c) :: sp_merge neg a b.
  Proof. reflexivity. Qed.
  Lemma merge_sc neg : forall (a b : sp) lo, sc lo a -> sc lo b -> sc lo (sp_merge neg a b).
  Proof.
    induction a as [|x a IHa]; intros b lo Ha Hb.
    - destruct b; [exact I|]. apply (sc_map_sgn neg (_ :: _)). exact Hb.
    - revert lo Ha Hb. induction b as [|y b IHb]; intros lo Ha Hb; [exact Ha|].
      rewrite merge_cons. cbv zeta. cbn [sc] in Ha, Hb. destruct Ha as (A1 & A2 & A3), Hb as (B1 & B2 & B3).
      destruct (Z.ltb_spec (fst x) (fst y)) as [L1|L1].
      { cbn [sc]. split; [lia|]. split; [exact A2|]. apply IHa; [exact A3|]. cbn [sc]. split; [lia|]. auto. }
      destruct (Z.ltb_spec (fst y) (fst x)) as [L2|L2].
      { cbn [sc]. rewrite sgn_fst, sgn_snd. split; [lia|]. split; [apply sg_neq0; exact B2|]. apply IHb; [|exact B3]. cbn [sc]. split; [lia|]. auto. }
      assert (E : fst x = fst y) by lia. rewrite <- E in B3. pose proof (IHa b (fst x) A3 B3) as Hm.
      destruct (iszero _) eqn:Ez.
      + eapply sc_weaken; [|exact Hm]. lia.
      + cbn [sc fst snd]. split; [lia|]. split; [|exact Hm]. apply iszero_neq in Ez. exact Ez.
  Qed.
  Lemma merge_coeff neg d : forall (a b : sp), scoeff (sp_merge neg a b) d = scoeff a d + sg neg (scoeff b d).
  Proof.
    induction a as [|x a IHa]; intros b.
    - replace (sp_merge neg [] b) with (map (sgn neg) b) by (destruct b; reflexivity). rewrite scoeff_map_sgn, scoeff_nil. ring.
    - induction b as [|y b IHb].
      + cbn [sp_merge]. rewrite (scoeff_nil d). destruct neg; cbn [sg]; ring.
      + rewrite merge_cons. cbv zeta. destruct (Z.ltb_spec (fst x) (fst y)) as [L1|L1].
        { rewrite (scoeff_cons x), IHa, (scoeff_cons x). ring. }
        destruct (Z.ltb_spec (fst y) (fst x)) as [L2|L2].
        { rewrite (scoeff_cons (sgn neg y)), sgn_fst, sgn_snd, (scoeff_cons y).
          rewrite IHb.
          destruct (fst y =? Z.of_nat d)%Z, neg; cbn [sg]; ring. }
        assert (E : fst x = fst y) by lia. destruct (iszero _) eqn:Ez.
        * apply iszero_eq in Ez. rewrite IHa, !scoeff_cons, E. destruct (fst y =? Z.of_nat d)%Z; destruct neg; cbn [sg].
          -- transitivity ((snd x - snd y) + (scoeff a d - scoeff b d)); [rewrite Ez; ring|ring].
          -- transitivity ((snd x + snd y) + (scoeff a d + scoeff b d)); [rewrite Ez; ring|ring].
          -- ring.
          -- ring.
        * rewrite scoeff_cons, IHa, !scoeff_cons, E. cbn [fst snd]. destruct (fst y =? Z.of_nat d)%Z, neg; cbn [sg]; ring.
  Qed.
  Lemma merge_le neg m : forall (a b : sp), Forall (fun t => (fst t <= m)%Z) a -> Forall (fun t => (fst t <= m)%Z) b -> Forall (fun t => (fst t <= m)%Z) (sp_merge neg a b).
  Proof.
    induction a as [|x a IHa]; intros b Ha Hb.
    - replace (sp_merge neg [] b) with (map (sgn neg) b) by (destruct b; reflexivity). apply Forall_map.
      eapply Forall_impl; [|exact Hb]. cbn. intros. rewrite sgn_fst. assumption.
    - induction b as [|y b IHb]; [exact Ha|]. inversion Ha; subst. inversion Hb; subst. rewrite merge_cons. cbv zeta.
      destruct (fst x <? fst y)%Z; [constructor; auto|].
      destruct (fst y <? fst x)%Z; [constructor; [rewrite sgn_fst; assumption|]; apply IHb; assumption|].
      destruct (iszero _); [apply IHa; auto|constructor; auto].
  Qed.
  Lemma sc_deg_md s lo md : sc lo s -> (sp_degree s <= md)%Z -> Forall (fun t => (fst t <= md)%Z) s.
  Proof. intros H Hd. eapply Forall_impl; [|apply (proj1 (sc_le_degree _ _ H))]. cbn. intros. lia. Qed.
  Lemma sp_add_spec md (a b : sp) : (0 <= md)%Z -> scanonical a -> scanonical b -> (sp_degree a <= md)%Z -> (sp_degree b <= md)%Z ->
    exists s, sp_add md a b = Some s /\ srepresents s (fun d => scoeff a d + scoeff b d).
  Proof.
    intros Hm Ha Hb Da Db. unfold sp_add. destruct a as [|t a]; cbn [sp_is_zero].
    { exists b. split; [reflexivity|]. split; auto. intros. rewrite scoeff_nil. ring. }
    destruct b as [|u b]; cbn [sp_is_zero].
    { exists (t :: a). split; [reflexivity|]. split; auto. intros. rewrite scoeff_nil. ring. }
    apply sc_iff in Ha, Hb. rewrite sp_make_id.
    - eexists. split; [reflexivity|]. split; [apply sc_iff, merge_sc; auto|]. intros. rewrite merge_coeff. reflexivity.
    - apply sp_degree_bound; [exact Hm|]. apply merge_le; eapply sc_deg_md; eauto.
  Qed.
  Lemma neg_sgn (s : sp) : map neg_term s = map (sgn true) s. Proof. reflexivity. Qed.
  Lemma sp_degree_map (f : Z * K -> Z * K) s : (forall t, fst (f t) = fst t) -> sp_degree (map f s) = sp_degree s.
  Proof.
    intros Hf. destruct s as [|t s]; [reflexivity|]. destruct (exists_last (l := t :: s)) as (s' & u & E); [discriminate|].
    rewrite E, map_app. cbn [map]. rewrite !sp_degree_app. apply Hf.
  Qed.
  Lemma sp_negate_spec md (a : sp) : scanonical a -> (sp_degree a <= md)%Z ->
    exists s, sp_negate md a = Some s /\ sp_negate_in_place a = s /\ srepresents s (fun d => - scoeff a d).
  Proof.
    intros Ha Hd. unfold sp_negate, sp_negate_in_place. destruct a as [|t a]; cbn [sp_is_zero].
    { exists []. split; [reflexivity|]. split; [reflexivity|]. split; auto. intros. rewrite scoeff_nil. ring. }
    rewrite sp_make_id by (rewrite sp_degree_map by reflexivity; exact Hd).
    eexists. split; [reflexivity|]. split; [reflexivity|]. rewrite neg_sgn.
    split; [apply sc_iff, sc_map_sgn, sc_iff; exact Ha|]. intros. rewrite scoeff_map_sgn. reflexivity.
  Qed.
  Lemma sp_sub_spec md (a b : sp) : (0 <= md)%Z -> scanonical a -> scanonical b -> (sp_degree a <= md)%Z -> (sp_degree b <= md)%Z ->
    exists s, sp_sub md a b = Some s /\ srepresents s (fun d => scoeff a d - scoeff b d).
  Proof.
    intros Hm Ha Hb Da Db. unfold sp_sub. destruct a as [|t a]; cbn [sp_is_zero].
    { destruct (sp_negate_spec md b Hb Db) as (s & E & _ & R1 & R2). exists s. split; [exact E|]. split; auto. intros. rewrite scoeff_nil, R2. ring. }
    destruct b as [|u b]; cbn [sp_is_zero].
    { exists (t :: a). split; [reflexivity|]. split; auto. intros. rewrite scoeff_nil. ring. }
    apply sc_iff in Ha, Hb. rewrite sp_make_id.
    - eexists. split; [reflexivity|]. split; [apply sc_iff, merge_sc; auto|]. intros. rewrite merge_coeff. cbn [sg]. ring.
    - apply sp_degree_bound; [exact Hm|]. apply merge_le; eapply sc_deg_md; eauto.
  Qed.
  Lemma scoeff_scale c (s : sp) d : scoeff (map (scale_term c) s) d = scoeff s d * c.
  Proof.
    induction s as [|t s IH]; [rewrite scoeff_nil; cbn [map]; rewrite scoeff_nil; ring|]. cbn [map]. rewrite !scoeff_cons, IH. cbn [scale_term fst snd].
    destruct (fst t =? Z.of_nat d)%Z; ring.
  Qed.
  Lemma sc_scale c : c <> 0 -> forall s lo, sc lo s -> sc lo (map (scale_term c) s).
  Proof. intros Hc. induction s as [|t s IH]; intros lo; [auto|]. cbn [map sc scale_term fst snd]. intros (H1 & H2 & H3). split; [exact H1|]. split; [apply fmul_neq0; assumption|apply IH; exact H3]. Qed.
  Lemma sp_mul_scalar_spec md (a : sp) c : scanonical a -> (sp_degree a <= md)%Z ->
    exists s, sp_mul_scalar md a c = Some s /\ sp_mul_scalar_in_place a c = s /\ srepresents s (fun d => scoeff a d * c).
  Proof.
    intros Ha Hd. unfold sp_mul_scalar, sp_mul_scalar_in_place. destruct (sp_is_zero a) eqn:Ez.
    { destruct a; [|discriminate]. exists []. repeat split; auto; try apply Ha. intros. rewrite scoeff_nil. ring. }
    cbn [orb]. destruct (iszero c) eqn:E0.
    { apply iszero_eq in E0. subst c. exists []. split; [reflexivity|]. split.
      - unfold isone. rewrite (proj2 (feqb_neq K 0 1)); [reflexivity|]. intros E. symmetry in E. exact (f1_neq_0 K E).
      - split; [apply sc_iff; exact I|]. intros. rewrite scoeff_nil. ring. }
    apply iszero_neq in E0. rewrite sp_make_id by (rewrite sp_degree_map by reflexivity; exact Hd).
    eexists. split; [reflexivity|]. split.
    - destruct (isone c) eqn:E1; [|reflexivity]. apply isone_eq in E1. subst c. rewrite <- (map_id a) at 1. apply map_ext. intros [d x]. unfold scale_term. cbn. f_equal. ring.
    - split; [apply sc_iff, sc_scale, sc_iff; auto|]. intros. apply scoeff_scale.
  Qed.

  (** ** Multiplication *)
  Definition okc (m : Z) (c : sp) : Prop := NoDup (map fst c) /\ Forall (fun t => (0 <= fst t <= m)%Z /\ snd t <> 0) c.
  Lemma acc_degrees (c : sp) d (f : K) x : In x (map fst (sp_accumulate c d f)) -> x = d \/ In x (map fst c).
  Proof.
    induction c as [|t c IH]; cbn [sp_accumulate map In]; [intuition auto|].
    destruct (fst t =? d)%Z; [destruct (iszero _); cbn [map In fst]; intuition auto|]. cbn [map In]. intuition auto.
  Qed.
  Lemma acc_ok m (c : sp) d (f : K) : okc m c -> (0 <= d <= m)%Z -> f <> 0 -> okc m (sp_accumulate c d f).
  Proof.
    intros [H1 H2] Hd Hf. induction c as [|t c IH]; cbn [sp_accumulate].
    - split; cbn; [constructor; [intros []|constructor]|constructor; [cbn; auto|constructor]].
    - cbn [map] in H1. inversion H1 as [|? ? N1 N2]; subst. inversion H2 as [|? ? T1 T2]; subst. destruct (IH N2 T2) as [I1 I2].
      destruct (Z.eqb_spec (fst t) d) as [E|E].
      + destruct (iszero _) eqn:Ez; [split; auto|]. apply iszero_neq in Ez. split; [cbn [map fst]; constructor; auto|]. constructor; [cbn; intuition|auto].
      + split; [cbn [map]; constructor; auto|constructor; auto]. intros Hin. apply acc_degrees in Hin. destruct Hin; auto.
  Qed.
  Lemma acc_coeff (c : sp) d (f : K) k : scoeff (sp_accumulate c d f) k = scoeff c k + (if (d =? Z.of_nat k)%Z then f else 0).
  Proof.
    induction c as [|t c IH]; cbn [sp_accumulate].
    - rewrite scoeff_cons. cbn [fst snd]. rewrite !scoeff_nil. ring.
    - destruct (Z.eqb_spec (fst t) d) as [E|E].
      + destruct (iszero _) eqn:Ez.
        * apply iszero_eq in Ez. rewrite scoeff_cons, E. destruct (d =? Z.of_nat k)%Z; [|ring].
          transitivity ((snd t + f) + scoeff c k); [rewrite Ez; ring|ring].
        * rewrite !scoeff_cons. cbn [fst snd]. rewrite E. destruct (d =? Z.of_nat k)%Z; ring.
      + rewrite !scoeff_cons, IH. ring.
  Qed.
  Definition inner_step (ta : Z * K) (c : sp) (tb : Z * K) : sp :=
    let f := snd ta * snd tb in if iszero f then c else sp_accumulate c (trunc 64 (fst ta + fst tb)) f.
  Lemma inner_spec m ta : (0 <= fst ta)%Z -> (m < 2 ^ 64)%Z -> forall b c, Forall (fun t => (0 <= fst t /\ fst ta + fst t <= m)%Z) b -> okc m c ->
    okc m (fold_left (inner_step ta) b c) /\
    forall k, scoeff (fold_left (inner_step ta) b c) k = scoeff c k + (if Nat.leb (Z.to_nat (fst ta)) k then snd ta * scoeff b (k - Z.to_nat (fst ta)) else 0).
  Proof.
    intros H0 Hm. induction b as [|tb b IH]; intros c Hb Hc; cbn [fold_left].
    - split; [exact Hc|]. intros. rewrite scoeff_nil. destruct (Nat.leb _ _); ring.
    - inversion Hb as [|? ? B1 B2]; subst.
      assert (Hs : okc m (inner_step ta c tb) /\ forall k, scoeff (inner_step ta c tb) k = scoeff c k + (if (fst ta + fst tb =? Z.of_nat k)%Z then snd ta * snd tb else 0)).
      { unfold inner_step. rewrite trunc_small by lia. destruct (iszero _) eqn:Ez.
        - apply iszero_eq in Ez. split; [exact Hc|]. intros. rewrite Ez. destruct (_ =? _)%Z; ring.
        - apply iszero_neq in Ez. split; [apply acc_ok; auto; lia|]. intros. apply acc_coeff. }
      destruct Hs as [S1 S2]. destruct (IH (inner_step ta c tb) B2 S1) as [I1 I2]. split; [exact I1|].
      intros k. rewrite I2, S2, scoeff_cons.
      destruct (Nat.leb_spec (Z.to_nat (fst ta)) k) as [Hle|Hgt].
      + destruct (Z.eqb_spec (fst ta + fst tb) (Z.of_nat k)), (Z.eqb_spec (fst tb) (Z.of_nat (k - Z.to_nat (fst ta)))); try lia; ring.
      + destruct (Z.eqb_spec (fst ta + fst tb) (Z.of_nat k)); [lia|]. ring.
  Qed.
  Lemma scoeff_delta t (a : sp) i : (0 <= fst t)%Z -> scoeff (t :: a) i = (if Nat.eqb i (Z.to_nat (fst t)) then snd t else 0) + scoeff a i.
  Proof. intros H. rewrite scoeff_cons. destruct (Z.eqb_spec (fst t) (Z.of_nat i)), (Nat.eqb_spec i (Z.to_nat (fst t))); try lia; ring. Qed.
  Lemma products_spec m (b : sp) : (m < 2 ^ 64)%Z -> forall a c, Forall (fun ta => (0 <= fst ta)%Z /\ Forall (fun t => (0 <= fst t /\ fst ta + fst t <= m)%Z) b) a -> okc m c ->
    let r := fold_left (fun c ta => fold_left (inner_step ta) b c) a c in
    okc m r /\ forall k, scoeff r k = scoeff c k + conv (scoeff a) (scoeff b) k.
  Proof.
    intros Hm. induction a as [|ta a IH]; intros c Ha Hc; cbv zeta; cbn [fold_left].
    - split; [exact Hc|]. intros. rewrite conv_zero_l by (intros; apply scoeff_nil). ring.
    - inversion Ha as [|? ? [A1 A2] A3]; subst. destruct (inner_spec m ta A1 Hm b c A2 Hc) as [I1 I2].
      destruct (IH _ A3 I1) as [J1 J2]. split; [exact J1|]. intros k. rewrite J2, I2.
      rewrite (conv_ext K (scoeff (ta :: a)) (fun i => (if Nat.eqb i (Z.to_nat (fst ta)) then snd ta else 0) + scoeff a i) _ (scoeff b)); auto.
      2:{ intros. apply scoeff_delta. exact A1. }
      rewrite conv_add, conv_delta. ring.
  Qed.
  Definition sorts (sort : sp -> sp) : Prop := forall l, Permutation l (sort l) /\ StronglySorted Z.le (map fst (sort l)).
  Lemma sorted_strict l : StronglySorted Z.le l -> NoDup l -> StronglySorted Z.lt l.
  Proof.
    induction 1 as [|x l H IH HF]; intros Hn; constructor; inversion Hn; subst; auto.
    rewrite Forall_forall in *. intros y Hy. specialize (HF y Hy). assert (x <> y) by (intros ->; contradiction). lia.
  Qed.
  Lemma do_mul_spec' sort md (a b : sp) : sorts sort -> scanonical a -> scanonical b -> (0 <= sp_degree a + sp_degree b <= md)%Z -> (md < 2 ^ 64)%Z ->
    exists s, sp_do_mul sort md a b = Some s /\ srepresents s (conv (scoeff a) (scoeff b)).
  Proof.
    intros Hsort Ha Hb Hd Hm. unfold sp_do_mul.
    assert (HP : okc md (sp_products a b) /\ forall k, scoeff (sp_products a b) k = conv (scoeff a) (scoeff b) k).
    { destruct (products_spec md b Hm a []) as [I1 I2].
      - apply sc_iff in Ha, Hb. pose proof (proj1 (sc_le_degree _ _ Ha)) as La. pose proof (proj1 (sc_le_degree _ _ Hb)) as Lb.
        pose proof (sc_above _ _ Ha) as Pa. pose proof (sc_above _ _ Hb) as Pb. rewrite Forall_forall in *.
        intros t Ht. specialize (La t Ht). specialize (Pa t Ht). split; [lia|]. apply Forall_forall. intros u Hu. specialize (Lb u Hu). specialize (Pb u Hu). lia.
      - split; constructor.
      - split; [exact I1|]. intros k. etransitivity; [exact (I2 k)|]. rewrite scoeff_nil. ring. }
    destruct HP as [[O1 O2] O3]. destruct (Hsort (sp_products a b)) as [S1 S2].
    assert (F2 : Forall (fun t => (0 <= fst t <= md)%Z /\ snd t <> 0) (sort (sp_products a b))).
    { rewrite Forall_forall in *. intros t Ht. apply O2. eapply Permutation_in; [symmetry; exact S1|exact Ht]. }
    rewrite sp_make_id.
    - eexists. split; [reflexivity|]. split.
      + split.
        * apply sorted_strict; [exact S2|]. eapply Permutation_NoDup; [|exact O1]. apply Permutation_map. exact S1.
        * eapply Forall_impl; [|exact F2]. cbn. intuition lia.
      + intros d. rewrite <- O3. apply scoeff_perm. symmetry. exact S1.
    - apply sp_degree_bound; [lia|]. eapply Forall_impl; [|exact F2]. cbn. intuition lia.
  Qed.
  Lemma sp_is_one_eq (s : sp) : sp_is_one s = true -> s = [(0%Z, 1)].
  Proof.
    destruct s as [|[d c] [|]]; try discriminate. cbn. intros H. apply andb_prop in H. destruct H as [H1 H2].
    apply Z.eqb_eq in H1. apply isone_eq in H2. subst. reflexivity.
  Qed.
  Lemma conv_sone (g : nat -> K) k : conv (scoeff [(0%Z, 1)]) g k = g k.
  Proof.
    rewrite (conv_ext K _ (coeff [1]) g g); auto; [apply conv_one|]. intros i. rewrite scoeff_cons, scoeff_nil. cbn [fst snd].
    destruct i as [|[|i]]; cbn; ring.
  Qed.
  Lemma sp_mul_spec sort md (a b : sp) : sorts sort -> scanonical a -> scanonical b -> (sp_degree a + sp_degree b <= md)%Z -> (md < 2 ^ 64)%Z ->
    exists s, sp_mul sort md a b = Some s /\ sp_mul_in_place sort md a b = Some s /\ srepresents s (conv (scoeff a) (scoeff b)).
  Proof.
    intros Hsort Ha Hb Hd Hm. unfold sp_mul, sp_mul_in_place. destruct (sp_is_zero a) eqn:Ea.
    { destruct a; [|discriminate]. exists []. cbn [orb]. split; [reflexivity|]. split; [reflexivity|]. split; [exact Ha|].
      intros. rewrite conv_zero_l; [reflexivity|]. intros. apply scoeff_nil. }
    destruct (sp_is_zero b) eqn:Eb.
    { destruct b; [|discriminate]. exists []. cbn [orb sp_is_one]. split; [reflexivity|]. split; [destruct (sp_is_one a); reflexivity|]. split; [exact Hb|].
      intros. rewrite conv_comm, conv_zero_l; [reflexivity|]. intros. apply scoeff_nil. }
    cbn [orb]. destruct (sp_is_one a) eqn:E1.
    { apply sp_is_one_eq in E1. subst a. exists b. split; [reflexivity|]. split.
      - destruct (sp_is_one b) eqn:E2; [|reflexivity]. apply sp_is_one_eq in E2. subst b. reflexivity.
      - split; [exact Hb|]. intros. rewrite conv_sone. reflexivity. }
    destruct (sp_is_one b) eqn:E2.
    { apply sp_is_one_eq in E2. subst b. exists a. split; [reflexivity|]. split; [reflexivity|]. split; [exact Ha|].
      intros. rewrite conv_comm, conv_sone. reflexivity. }
    destruct (do_mul_spec' sort md a b Hsort Ha Hb) as (s & E & R); auto.
    { apply sc_iff in Ha, Hb. pose proof (proj2 (sc_le_degree _ _ Ha)). pose proof (proj2 (sc_le_degree _ _ Hb)).
      destruct a; [discriminate|]. destruct b; [discriminate|]. specialize (H ltac:(discriminate)). specialize (H0 ltac:(discriminate)). lia. }
    exists s. auto.
  Qed.
End P.
