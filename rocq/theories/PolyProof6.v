(** Conversions and mixed operations of dense and sparse polynomials, sparse evaluation and Fold. *)
From Coq Require Import ZArith List Bool Arith Lia Ring Field Field_theory Permutation Sorted.
From Verif Require Import Field BigIntModel BigIntSpec BigIntProof ParallelizeModel ParallelizeProof ParallelizeExtra SemigroupModel SemigroupSpec SemigroupProof SemigroupExtra PolyModel PolySpec PolyProof PolyProof2 PolyProof3 PolyProof5.
Import ListNotations.
Open Scope fld_scope.

Section P.
  Variable K : fld.
  Add Field KfP6 : (fld_theory K).
  Notation sp := (list (Z * K)).

  Lemma degree_nonneg (s : sp) : scanonical s -> (0 <= sp_degree s)%Z.
  Proof.
    intros H. apply sc_iff in H. destruct s as [|t s]; [cbn; lia|].
    pose proof (proj2 (sc_le_degree K _ _ H) ltac:(discriminate)). lia.
  Qed.
  Lemma sat_coeff (s : sp) d : scanonical s -> sp_at s (Z.of_nat d) = scoeff s d.
  Proof. intros H. apply sc_iff in H. eapply sp_at_spec. exact H. Qed.
  Lemma scoeff_over' (s : sp) d : scanonical s -> (sp_degree s < Z.of_nat d)%Z -> scoeff s d = 0.
  Proof. intros H. apply sc_iff in H. eapply scoeff_over. exact H. Qed.
  Lemma leading_spec (s : sp) : scanonical s -> s <> [] -> sp_leading s = scoeff s (Z.to_nat (sp_degree s)) /\ sp_leading s <> 0.
  Proof. intros H Hn. apply sc_iff in H. apply (sc_lead K s (-1)); auto. lia. Qed.

  Lemma to_dense_spec md (s : sp) : scanonical s -> (sp_degree s <= md)%Z ->
    exists l, sp_to_dense md s = Some l /\ represents l (scoeff s).
  Proof.
    intros Hs Hd. unfold sp_to_dense. destruct (sp_is_zero s) eqn:Ez.
    { destruct s; [|discriminate]. exists []. split; [reflexivity|]. split; [exact (canonical_nil K)|]. intros. rewrite coeff_over by (cbn; lia). reflexivity. }
    pose proof (degree_nonneg s Hs) as Hn. assert (Hsn : s <> []) by (destruct s; discriminate).
    set (l := map _ _).
    assert (HL : length l = (Z.to_nat (sp_degree s) + 1)%nat) by (unfold l; rewrite map_length, seq_length; reflexivity).
    assert (HC : forall i, coeff l i = scoeff s i).
    { intros i. unfold l. rewrite coeff_map_seq. destruct (Nat.ltb_spec i (Z.to_nat (sp_degree s) + 1)); [apply sat_coeff; exact Hs|].
      symmetry. apply scoeff_over'; auto. lia. }
    rewrite dense_make_id by (rewrite degree_eq, HL; lia). exists l. split; [reflexivity|]. split; [|exact HC].
    apply canonical_of_lead. intros _. rewrite HC, HL. replace (Z.to_nat (sp_degree s) + 1 - 1)%nat with (Z.to_nat (sp_degree s)) by lia.
    destruct (leading_spec s Hs Hsn) as [<- Hl]. exact Hl.
  Qed.
  Lemma to_sparse_terms (l : list K) : forall n a, (Z.of_nat (a + n) <= 2 ^ 64)%Z ->
    let s := flat_map (fun i => if iszero (at_ l i) then [] else [(Z.of_nat i, at_ l i)]) (seq a n) in
    sc K (Z.of_nat a - 1) s /\ Forall (fun t => (fst t < Z.of_nat (a + n))%Z) s /\
    forall d, scoeff s d = if Nat.leb a d && Nat.ltb d (a + n) then coeff l d else 0.
  Proof.
    induction n as [|n IH]; intros a Hb; cbv zeta; cbn [seq flat_map].
    - split; [exact I|]. split; [constructor|]. intros d. destruct (Nat.leb_spec a d), (Nat.ltb_spec d (a + 0)); cbn; try lia; reflexivity.
    - destruct (IH (S a) ltac:(lia)) as (I1 & I2 & I3). rewrite at_coeff.
      assert (HR : forall d, scoeff (flat_map (fun i => if iszero (at_ l i) then [] else [(Z.of_nat i, at_ l i)]) (seq (S a) n)) d + (if Nat.eqb d a then coeff l a else 0) =
        if Nat.leb a d && Nat.ltb d (a + S n) then coeff l d else 0).
      { intros d. rewrite I3. destruct (Nat.leb_spec (S a) d), (Nat.leb_spec a d), (Nat.ltb_spec d (S a + n)), (Nat.ltb_spec d (a + S n)), (Nat.eqb_spec d a); cbn [andb]; try lia; try ring.
        subst. ring. }
      assert (I2' : Forall (fun t => (fst t < Z.of_nat (a + S n))%Z) (flat_map (fun i => if iszero (at_ l i) then [] else [(Z.of_nat i, at_ l i)]) (seq (S a) n))).
      { eapply Forall_impl; [|exact I2]. cbn. intros. lia. }
      destruct (iszero (coeff l a)) eqn:Ez; cbn [app].
      + apply iszero_eq in Ez. split; [eapply sc_weaken; [|exact I1]; lia|]. split; [exact I2'|]. intros d. rewrite <- HR, Ez. destruct (Nat.eqb d a); ring.
      + apply iszero_neq in Ez. split; [|split].
        * cbn [sc fst snd]. split; [lia|]. split; [exact Ez|]. replace (Z.of_nat a) with (Z.of_nat (S a) - 1)%Z by lia. exact I1.
        * constructor; [cbn; lia|exact I2'].
        * intros d. rewrite scoeff_cons. cbn [fst snd]. rewrite <- HR.
          destruct (Z.eqb_spec (Z.of_nat a) (Z.of_nat d)), (Nat.eqb_spec d a); try lia; ring.
  Qed.
  Lemma to_sparse_spec md (l : list K) : (0 <= md)%Z -> (Z.of_nat (degree l) <= md)%Z -> (md < 2 ^ 64)%Z -> exists s, to_sparse md l = Some s /\ srepresents s (coeff l).
  Proof.
    intros H0 Hd Hm. unfold to_sparse. destruct (to_sparse_terms l (degree l + 1) 0 ltac:(lia)) as (I1 & I2 & I3).
    rewrite sp_make_id.
    - eexists. split; [reflexivity|]. split; [apply sc_iff; exact I1|]. intros d. rewrite I3. cbn [Nat.leb andb].
      destruct (Nat.ltb_spec d (0 + (degree l + 1))); [reflexivity|]. symmetry. apply coeff_over. rewrite degree_eq in *. lia.
    - apply sp_degree_bound; [exact H0|]. eapply Forall_impl; [|exact I2]. cbn. intros. lia.
  Qed.

  (** ** Mixed addition and subtraction *)
  Lemma ds_add_spec md (a : list K) (b : sp) : canonical a -> scanonical b -> (sp_degree b <= md)%Z ->
    exists l, ds_add md a b = Some l /\ represents l (fun i => coeff a i + scoeff b i).
  Proof.
    intros Ha Hb Hd. unfold ds_add. destruct (is_zero a) eqn:Ea.
    { destruct (to_dense_spec md b Hb Hd) as (l & E & R1 & R2). exists l. split; [exact E|]. split; [exact R1|]. intros. rewrite (is_zero_coeff K a _ Ea), R2. ring. }
    destruct (sp_is_zero b) eqn:Eb.
    { destruct b; [|discriminate]. exists a. split; [reflexivity|]. split; [exact Ha|]. intros. rewrite scoeff_nil. ring. }
    eexists. split; [reflexivity|]. apply remove_high_represents. intros i. rewrite coeff_map_seq, at_coeff, sat_coeff by exact Hb.
    pose proof (degree_nonneg b Hb). pose proof (degree_length K a (is_zero_not K a Ea)).
    destruct (Nat.ltb_spec i (Nat.max (degree a) (Z.to_nat (sp_degree b)) + 1)); [reflexivity|].
    rewrite coeff_over, scoeff_over' by (auto; lia). ring.
  Qed.
  Lemma ds_sub_spec md (a : list K) (b : sp) : canonical a -> scanonical b -> (sp_degree b <= md)%Z ->
    exists l, ds_sub md a b = Some l /\ represents l (fun i => coeff a i - scoeff b i).
  Proof.
    intros Ha Hb Hd. unfold ds_sub. destruct (is_zero a) eqn:Ea.
    { destruct (sp_negate_spec K md b Hb Hd) as (b' & En & Ei & Rn1 & Rn2). rewrite En.
      destruct (to_dense_spec md b' Rn1) as (l & E & R1 & R2).
      { rewrite <- Ei. unfold sp_negate_in_place. rewrite sp_degree_map by reflexivity. exact Hd. }
      exists l. split; [exact E|]. split; [exact R1|]. intros. rewrite (is_zero_coeff K a _ Ea), R2, Rn2. ring. }
    destruct (sp_is_zero b) eqn:Eb.
    { destruct b; [|discriminate]. exists a. split; [reflexivity|]. split; [exact Ha|]. intros. rewrite scoeff_nil. ring. }
    eexists. split; [reflexivity|]. apply remove_high_represents. intros i. rewrite coeff_map_seq, at_coeff, sat_coeff by exact Hb.
    pose proof (degree_nonneg b Hb). pose proof (degree_length K a (is_zero_not K a Ea)).
    destruct (Nat.ltb_spec i (Nat.max (degree a) (Z.to_nat (sp_degree b)) + 1)); [reflexivity|].
    rewrite coeff_over, scoeff_over' by (auto; lia). ring.
  Qed.
  Lemma copy_loop neg : forall (b : sp) lo l, sc K lo b -> (-1 <= lo)%Z -> Forall (fun t => (Z.to_nat (fst t) < length l)%nat) b ->
    (forall i, (lo < Z.of_nat i)%Z -> coeff l i = 0) ->
    exists l', ofold (fun l (t : Z * K) => store_at l (Z.to_nat (fst t)) (snd (sgn neg t))) b l = Some l' /\ length l' = length l /\
      forall i, coeff l' i = coeff l i + sg K neg (scoeff b i).
  Proof.
    induction b as [|t b IH]; intros lo l Hs Hlo Hl Hz; cbn [ofold].
    - exists l. repeat split; auto. intros. rewrite scoeff_nil. destruct neg; cbn [sg]; ring.
    - cbn [sc] in Hs. destruct Hs as (S1 & S2 & S3). inversion Hl as [|? ? L1 L2]; subst.
      destruct (store_at_spec K l (Z.to_nat (fst t)) (snd (sgn neg t)) L1) as (l1 & E1 & N1 & C1). rewrite E1.
      destruct (IH (fst t) l1 S3 ltac:(lia)) as (l2 & E2 & N2 & C2).
      + rewrite N1. exact L2.
      + intros i Hi. rewrite C1. destruct (Nat.eqb_spec i (Z.to_nat (fst t))); [lia|]. apply Hz. lia.
      + exists l2. split; [exact E2|]. split; [congruence|]. intros i. rewrite C2, C1, scoeff_delta, sgn_snd by lia.
        destruct (Nat.eqb_spec i (Z.to_nat (fst t))) as [->|].
        * rewrite Hz by lia. destruct neg; cbn [sg]; ring.
        * destruct neg; cbn [sg]; ring.
  Qed.
  Lemma deg_fits (b : sp) : scanonical b -> Forall (fun t => (Z.to_nat (fst t) < Z.to_nat (sp_degree b) + 1)%nat /\ (0 <= fst t <= sp_degree b)%Z) b.
  Proof.
    intros H. apply sc_iff in H. pose proof (proj1 (sc_le_degree K _ _ H)) as F1. pose proof (sc_above K _ _ H) as F2.
    rewrite Forall_forall in *. intros t Ht. specialize (F1 t Ht). specialize (F2 t Ht). lia.
  Qed.
  Lemma ds_copy_spec neg (b : sp) : scanonical b -> exists l, ds_copy neg b = Some l /\ represents l (fun i => sg K neg (scoeff b i)).
  Proof.
    intros Hb. unfold ds_copy. destruct (copy_loop neg b (-1) (repeat 0 (Z.to_nat (sp_degree b) + 1))) as (l & E & L & C).
    - apply sc_iff. exact Hb.
    - lia.
    - rewrite repeat_length. eapply Forall_impl; [|apply deg_fits; exact Hb]. cbn. intros. lia.
    - intros. apply coeff_repeat.
    - rewrite E. eexists. split; [reflexivity|]. apply remove_high_represents. intros i. rewrite C, coeff_repeat. ring.
  Qed.
  Definition aip_step neg (deg : nat) (lu : list K * list K) (t : Z * K) : option (list K * list K) :=
    let '(l, u) := lu in let d := Z.to_nat (fst t) in
    if Nat.leb d deg then option_map (fun l => (l, u)) (add_at l d (snd (sgn neg t)))
    else option_map (fun u => (l, u)) (store_at u (d - deg - 1) (snd (sgn neg t))).
  Lemma aip_loop neg deg : forall (b : sp) lo l u, sc K lo b -> (-1 <= lo)%Z -> length l = (deg + 1)%nat -> Forall (fun t => (Z.to_nat (fst t) < length l + length u)%nat) b ->
    (forall i, (lo < Z.of_nat (deg + 1 + i))%Z -> coeff u i = 0) ->
    exists l' u', ofold (aip_step neg deg) b (l, u) = Some (l', u') /\ length l' = length l /\ length u' = length u /\
      forall i, coeff (l' ++ u') i = coeff (l ++ u) i + sg K neg (scoeff b i).
  Proof.
    induction b as [|t b IH]; intros lo l u Hs Hlo HL Hl Hz; cbn [ofold].
    - exists l, u. repeat split; auto. intros. rewrite scoeff_nil. destruct neg; cbn [sg]; ring.
    - cbn [sc] in Hs. destruct Hs as (S1 & S2 & S3). inversion Hl as [|? ? L1 L2]; subst. unfold aip_step at 1.
      destruct (Nat.leb_spec (Z.to_nat (fst t)) deg) as [Hle|Hgt].
      + destruct (add_at_spec K l (Z.to_nat (fst t)) (snd (sgn neg t)) ltac:(lia)) as (l1 & E1 & N1 & C1). rewrite E1. cbn [option_map].
        destruct (IH (fst t) l1 u S3 ltac:(lia) ltac:(lia)) as (l2 & u2 & E2 & N2 & M2 & C2).
        * rewrite N1. exact L2.
        * intros i Hi. apply Hz. lia.
        * exists l2, u2. split; [exact E2|]. split; [congruence|]. split; [exact M2|]. intros i. rewrite C2, scoeff_delta, !coeff_app, N1, C1, sgn_snd by lia.
          destruct (Nat.ltb_spec i (length l)) as [Hi|Hi].
          -- rewrite (Nat.eqb_sym i). destruct (Nat.eqb (Z.to_nat (fst t)) i); destruct neg; cbn [sg]; ring.
          -- destruct (Nat.eqb_spec i (Z.to_nat (fst t))); [lia|]. destruct neg; cbn [sg]; ring.
      + set (j := (Z.to_nat (fst t) - deg - 1)%nat).
        destruct (store_at_spec K u j (snd (sgn neg t)) ltac:(lia)) as (u1 & E1 & N1 & C1). rewrite E1. cbn [option_map].
        destruct (IH (fst t) l u1 S3 ltac:(lia) HL) as (l2 & u2 & E2 & N2 & M2 & C2).
        * rewrite N1. exact L2.
        * intros i Hi. rewrite C1. destruct (Nat.eqb_spec i j); [lia|]. apply Hz. lia.
        * exists l2, u2. split; [exact E2|]. split; [exact N2|]. split; [congruence|]. intros i. rewrite C2, scoeff_delta, !coeff_app, C1, sgn_snd by lia.
          destruct (Nat.ltb_spec i (length l)) as [Hi|Hi].
          -- destruct (Nat.eqb_spec i (Z.to_nat (fst t))); [lia|]. destruct neg; cbn [sg]; ring.
          -- destruct (Nat.eqb_spec (i - length l) j) as [Ej|Ej], (Nat.eqb_spec i (Z.to_nat (fst t))); try lia.
             ++ rewrite Hz by lia. destruct neg; cbn [sg]; ring.
             ++ destruct neg; cbn [sg]; ring.
  Qed.
  Lemma ds_add_in_place_spec neg (a : list K) (b : sp) : canonical a -> scanonical b ->
    exists l, ds_add_in_place neg a b = Some l /\ represents l (fun i => coeff a i + sg K neg (scoeff b i)).
  Proof.
    intros Ha Hb. unfold ds_add_in_place. destruct (is_zero a) eqn:Ea.
    { destruct (ds_copy_spec neg b Hb) as (l & E & R1 & R2). exists l. split; [exact E|]. split; [exact R1|]. intros. rewrite (is_zero_coeff K a _ Ea), R2. ring. }
    destruct (sp_is_zero b) eqn:Eb.
    { destruct b; [|discriminate]. exists a. split; [reflexivity|]. split; [exact Ha|]. intros. rewrite scoeff_nil. destruct neg; cbn [sg]; ring. }
    pose proof (degree_length K a (is_zero_not K a Ea)) as HL. pose proof (degree_nonneg b Hb) as Hn.
    destruct (aip_loop neg (degree a) b (-1) a (repeat 0 (Z.to_nat (sp_degree b) - degree a))) as (l & u & E & L1 & L2 & C).
    - apply sc_iff. exact Hb.
    - lia.
    - lia.
    - rewrite repeat_length. eapply Forall_impl; [|apply deg_fits; exact Hb]. cbn. intros. lia.
    - intros. apply coeff_repeat.
    - change (ofold _ _ _) with (ofold (aip_step neg (degree a)) b (a, repeat 0 (Z.to_nat (sp_degree b) - degree a))). rewrite E.
      eexists. split; [reflexivity|]. apply remove_high_represents. intros i. rewrite C, pad_coeff. reflexivity.
  Qed.

  (** ** Mixed multiplication and division *)
  Lemma conv_terms (a : list K) (k : nat) : forall b : sp, Forall (fun t => (0 <= fst t)%Z) b ->
    fsum (map (fun t => if Nat.leb (Z.to_nat (fst t)) k then coeff a (k - Z.to_nat (fst t)) * snd t else 0) b) = conv (coeff a) (scoeff b) k.
  Proof.
    induction b as [|t b IH]; intros H; cbn [map fsum].
    - rewrite conv_comm, conv_zero_l; [reflexivity|]. intros. apply scoeff_nil.
    - inversion H as [|? ? H1 H2]; subst. rewrite IH by exact H2. rewrite !(conv_comm K (coeff a)).
      rewrite (conv_ext K (scoeff (t :: b)) (fun i => (if Nat.eqb i (Z.to_nat (fst t)) then snd t else 0) + scoeff b i) _ (coeff a)); auto.
      2:{ intros. apply scoeff_delta. exact H1. }
      rewrite conv_add, conv_delta. destruct (Nat.leb (Z.to_nat (fst t)) k); ring.
  Qed.
  Lemma ds_do_mul_spec (a : list K) (b : sp) : a <> [] -> scanonical b -> exists l, ds_do_mul a b = Some l /\ represents l (conv (coeff a) (scoeff b)).
  Proof.
    intros Ha Hb. unfold ds_do_mul.
    rewrite (ofold_ext _ (fun c t => writes K (if iszero (snd t) then [] else row K a (Z.to_nat (fst t)) (snd t)) c)).
    2:{ intros c t Ht. destruct (iszero (snd t)); [reflexivity|]. apply row_loop. }
    unfold writes. rewrite <- ofold_flat. set (ws := flat_map _ _).
    pose proof (degree_length K a Ha) as HL. pose proof (deg_fits b Hb) as HF. rewrite Forall_forall in HF.
    destruct (writes_spec K ws (repeat 0 (degree a + Z.to_nat (sp_degree b) + 1))) as (c & E & L & C).
    { apply Forall_flat_map, Forall_forall. intros t Ht. destruct (iszero (snd t)); [constructor|].
      apply row_ok. right. rewrite repeat_length. specialize (HF t Ht). lia. }
    unfold writes in E. rewrite E. eexists. split; [reflexivity|]. apply remove_high_represents. intros k.
    rewrite C, coeff_repeat. unfold ws. rewrite wsum_flat.
    rewrite (fsum_map_ext K _ (fun t => if Nat.leb (Z.to_nat (fst t)) k then coeff a (k - Z.to_nat (fst t)) * snd t else 0)).
    2:{ intros t Ht. destruct (iszero (snd t)) eqn:Ez.
        - apply iszero_eq in Ez. rewrite Ez. unfold wsum. cbn [map fsum]. destruct (Nat.leb _ _); ring.
        - apply row_sum. }
    rewrite conv_terms; [ring|]. apply Forall_forall. intros t Ht. specialize (HF t Ht). lia.
  Qed.
  Lemma ds_mul_spec md (a : list K) (b : sp) : canonical a -> scanonical b -> (sp_degree b <= md)%Z ->
    exists l, ds_mul md a b = Some l /\ ds_mul_in_place a b = Some l /\ represents l (conv (coeff a) (scoeff b)).
  Proof.
    intros Ha Hb Hd. unfold ds_mul, ds_mul_in_place. destruct (is_zero a) eqn:Ea.
    { apply is_zero_nil in Ea. subst a. exists []. cbn [orb]. split; [reflexivity|]. split; [reflexivity|]. split; [exact Ha|]. intros.
      rewrite coeff_over by (cbn; lia). symmetry. apply conv_zero_l. intros. apply coeff_over. cbn. lia. }
    destruct (sp_is_zero b) eqn:Eb.
    { destruct b; [|discriminate]. exists []. cbn [orb sp_is_one]. split; [reflexivity|]. split.
      - destruct (is_one a) eqn:E1; [|reflexivity]. destruct (ds_copy_spec false [] Hb) as (l & E & R1 & R2). rewrite E. f_equal.
        apply canonical_unique; auto; [exact (canonical_nil K)|]. intros i. rewrite R2. cbn [sg]. rewrite scoeff_nil. symmetry. apply coeff_over. cbn. lia.
      - split; [exact (canonical_nil K)|]. intros. rewrite coeff_over by (cbn; lia). symmetry. rewrite conv_comm. apply conv_zero_l. intros. apply scoeff_nil. }
    cbn [orb]. destruct (is_one a) eqn:E1.
    { apply is_one_eq in E1. subst a. destruct (to_dense_spec md b Hb Hd) as (l & E & R1 & R2). exists l. split; [exact E|]. split.
      - destruct (sp_is_one b) eqn:E2.
        + f_equal. apply canonical_unique; auto. intros i. rewrite R2. apply sp_is_one_eq in E2. subst b. rewrite scoeff_cons, scoeff_nil. cbn [fst snd].
          destruct i as [|[|i]]; cbn; ring.
        + destruct (ds_copy_spec false b Hb) as (l' & E' & R1' & R2'). rewrite E'. f_equal. apply canonical_unique; auto. intros i. rewrite R2, R2'. reflexivity.
      - split; [exact R1|]. intros. rewrite conv_one. apply R2. }
    destruct (sp_is_one b) eqn:E2.
    { apply sp_is_one_eq in E2. subst b. exists a. split; [reflexivity|]. split; [reflexivity|]. split; [exact Ha|].
      intros. rewrite conv_comm, conv_sone. reflexivity. }
    destruct (ds_do_mul_spec a b (is_zero_not K a Ea) Hb) as (l & E & R). exists l. auto.
  Qed.
  Lemma upd_sparse_spec (other : sp) r d qc : Forall (fun t => (0 <= fst t)%Z /\ (d + Z.to_nat (fst t) < length r)%nat) other ->
    exists r', upd_sparse other r d qc = Some r' /\ length r' = length r /\
      forall k, coeff r' k = coeff r k - (if Nat.leb d k then qc * scoeff other (k - d)%nat else 0).
  Proof.
    intros H. unfold upd_sparse.
    set (w := map (fun t : Z * K => ((d + Z.to_nat (fst t))%nat, - (qc * snd t))) other).
    destruct (writes_spec K w r) as (c & E & L & C).
    { unfold w. apply Forall_map. eapply Forall_impl; [|exact H]. cbn. intros t [_ Ht]. exact Ht. }
    exists c. split; [unfold writes, w in E; rewrite ofold_map in E; exact E|]. split; [exact L|].
    intros k. rewrite C. assert (HW : wsum K w k = - (if Nat.leb d k then qc * scoeff other (k - d)%nat else 0)); [|rewrite HW; ring].
    unfold w. clear -H. induction other as [|t o IH]; [unfold wsum; cbn [map fsum]; rewrite scoeff_nil; destruct (Nat.leb d k); ring|].
    inversion H as [|? ? [H1 H2] H3]; subst. specialize (IH H3). cbn [map]. unfold wsum in *. cbn [map fsum fst snd]. rewrite IH, scoeff_delta by exact H1.
    destruct (Nat.leb_spec d k), (Nat.eqb_spec (d + Z.to_nat (fst t)) k), (Nat.eqb_spec (k - d) (Z.to_nat (fst t))); try lia; ring.
  Qed.
  Lemma ds_divide_spec md (self : list K) (other : sp) : canonical self -> scanonical other -> self <> [] -> other <> [] ->
    (Z.of_nat (degree self) <= md)%Z -> (sp_degree other <= md)%Z ->
    exists q r, ds_divide md self other = Some (Some (q, r)) /\ canonical q /\ canonical r /\ (Z.of_nat (length r) <= sp_degree other)%Z /\
      forall k, coeff self k = conv (coeff q) (scoeff other) k + coeff r k.
  Proof.
    intros Hs Ho Hsn Hon Hd Hd'. unfold ds_divide.
    replace (sp_is_zero other) with false by (destruct other; [congruence|reflexivity]).
    destruct (leading_spec other Ho Hon) as [El Hl]. rewrite El in *. pose proof (degree_nonneg other Ho) as Hn.
    destruct (divide_gen_spec K (scoeff other) (Z.to_nat (sp_degree other))) with (upd := upd_sparse other) (md := md) (self := self) (od := sp_to_dense md other)
      as (q & r & E & Cq & Cr & D & S); auto.
    - intros. apply scoeff_over'; auto. lia.
    - intros. apply upd_sparse_spec. pose proof (deg_fits other Ho) as HF. eapply Forall_impl; [|exact HF]. cbn. intros. lia.
    - exists q, r. repeat split; auto. lia.
  Qed.
  Lemma sd_divide_spec md (self : sp) (other : list K) : scanonical self -> canonical other -> self <> [] -> other <> [] -> (sp_degree self <= md)%Z ->
    exists q r, sd_divide md self other = Some (Some (q, r)) /\ canonical q /\ canonical r /\ smaller r other /\
      forall k, scoeff self k = conv (coeff q) (coeff other) k + coeff r k.
  Proof.
    intros Hs Ho Hsn Hon Hd. unfold sd_divide. destruct (sp_is_zero self) eqn:Ez; [destruct self; [congruence|discriminate]|].
    assert (HT := to_dense_spec md self Hs Hd). destruct HT as (l & E & R1 & R2). rewrite E.
    destruct (leading_spec self Hs Hsn) as [El Hl]. rewrite El, <- R2 in Hl.
    destruct (dense_divide_spec K md l other R1 Ho) as (q & r & Eq & Cq & Cr & D & S).
    - intros ->. apply Hl. apply coeff_over. cbn. lia.
    - exact Hon.
    - assert (HL : (length l <= Z.to_nat (sp_degree self) + 1)%nat).
      { apply canonical_length_le; [exact R1|]. intros i Hi. rewrite R2. apply scoeff_over'; auto. pose proof (degree_nonneg self Hs). lia. }
      rewrite degree_eq. pose proof (degree_nonneg self Hs). lia.
    - exists q, r. repeat split; auto. intros k. rewrite <- R2. apply S.
  Qed.

  (** ** Evaluation *)
  Lemma squares_spec (x : K) n : forall k, squares (x ^ (2 ^ k)) n = map (fun i => x ^ (2 ^ (k + i))) (seq 0 n).
  Proof.
    induction n as [|n IH]; intros k; [reflexivity|]. cbn [squares seq map]. rewrite Nat.add_0_r. f_equal.
    rewrite <- seq_shift, map_map. rewrite <- fpow_add. replace (2 ^ k + 2 ^ k)%nat with (2 ^ S k)%nat by (cbn; lia). rewrite IH.
    apply map_ext. intros i. do 2 f_equal. lia.
  Qed.
  Lemma num_powers_enough d : (0 <= d)%Z -> (d < 2 ^ Z.of_nat (num_powers d))%Z.
  Proof.
    intros H. unfold num_powers. destruct (Z.eqb_spec d 0) as [->|Hn]; [reflexivity|].
    pose proof (Z.log2_spec d ltac:(lia)) as [_ L]. pose proof (Z.log2_nonneg d).
    eapply Z.lt_le_trans; [exact L|]. apply Z.pow_le_mono_r; lia.
  Qed.
  Lemma val_zeros m : val 64 (repeat 0%Z m) = 0%Z.
  Proof. induction m as [|m IH]; [reflexivity|]. cbn [repeat val]. rewrite IH. reflexivity. Qed.
  Lemma limbs_zeros m : limbs64 m (repeat 0%Z m).
  Proof. split; [apply repeat_length|]. apply Forall_forall. intros y Hy. apply repeat_spec in Hy. subst. split; [lia|reflexivity]. Qed.
  Lemma pow_entry p n table_deg (x : K) d : (0 < p)%Z -> (0 <= d <= table_deg)%Z -> (table_deg < 2 ^ 64)%Z ->
    pow_with_table 1 fmul (squares x (num_powers table_deg)) (sp_exponent p n d) = Some (x ^ (Z.to_nat (d mod p))).
  Proof.
    intros Hp Hd Ht. pose proof (Z.mod_pos_bound d p Hp) as Hm. pose proof (Z.mod_le d p ltac:(lia) Hp) as Hle.
    assert (HE : limbs64 (S (n - 1)) (sp_exponent p n d)).
    { destruct (limbs_zeros (n - 1)) as [L1 L2]. split; [cbn [sp_exponent length]; rewrite L1; reflexivity|]. constructor; [lia|exact L2]. }
    assert (HV : val 64 (sp_exponent p n d) = (d mod p)%Z).
    { unfold sp_exponent. cbn [val]. rewrite val_zeros. lia. }
    replace (squares x (num_powers table_deg)) with (map (fun i => times 1 fmul (2 ^ i) x) (seq 0 (num_powers table_deg))).
    - rewrite (pow_with_table_spec 1 fmul (fun y => y * y) (fld_monoid K) ltac:(reflexivity) (S (n - 1))) by exact HE. rewrite HV.
      pose proof (num_powers_enough table_deg ltac:(lia)). rewrite (proj2 (Z.ltb_lt _ _)) by lia. rewrite times_fpow. reflexivity.
    - pose proof (squares_spec x (num_powers table_deg) 0) as HQ. change (2 ^ 0)%nat with 1%nat in HQ. rewrite fpow_1 in HQ. rewrite HQ.
      apply map_ext. intros i. rewrite times_fpow. reflexivity.
  Qed.
  Lemma sp_evaluate_gen p n (s : sp) x : (0 < p)%Z -> scanonical s ->
    sp_evaluate p n s x = Some (fsum (map (fun t => snd t * x ^ (Z.to_nat (fst t mod p))) s)).
  Proof.
    intros Hp Hs. unfold sp_evaluate. destruct (sp_is_zero s) eqn:Ez; [destruct s; [reflexivity|discriminate]|].
    assert (HF : Forall (fun t => (0 <= fst t <= sp_degree s)%Z) s).
    { eapply Forall_impl; [|apply deg_fits; exact Hs]. cbn. intros. lia. }
    assert (HD : (sp_degree s < 2 ^ 64)%Z).
    { apply sc_iff in Hs. destruct s; [discriminate|]. apply (proj2 (sc_le_degree K _ _ Hs)). discriminate. }
    generalize (sp_degree s) HF HD. clear -Hp. intros D HF HD.
    enough (G : forall a, ofold (fun sum (t : Z * K) => match pow_with_table 1 fmul (squares x (num_powers D)) (sp_exponent p n (fst t)) with
      | Some v => Some (sum + v * snd t) | None => None end) s a = Some (a + fsum (map (fun t => snd t * x ^ (Z.to_nat (fst t mod p))) s))).
    { rewrite G. f_equal. ring. }
    induction s as [|t s IH]; intros a; cbn [ofold map fsum]; [f_equal; ring|]. inversion HF as [|? ? F1 F2]; subst.
    rewrite (pow_entry p n D x (fst t) Hp F1 HD). rewrite IH by exact F2. f_equal. ring.
  Qed.
  Lemma sp_evaluate_spec p n (s : sp) x : scanonical s -> (sp_degree s < p)%Z -> sp_evaluate p n s x = Some (seval s x).
  Proof.
    intros Hs Hp. pose proof (degree_nonneg s Hs) as Hn. rewrite sp_evaluate_gen by (auto; lia). f_equal. unfold seval.
    apply fsum_map_ext. intros t Ht. pose proof (deg_fits s Hs) as HF. rewrite Forall_forall in HF. specialize (HF t Ht).
    rewrite Z.mod_small by lia. reflexivity.
  Qed.

  (** the value of a sparse polynomial is the value of its dense form *)
  Lemma seval_dense (s : sp) (l : list K) x : scanonical s -> (forall i, coeff l i = scoeff s i) -> seval s x = eval l x.
  Proof.
    intros Hs H. set (N := Nat.max (length l) (Z.to_nat (sp_degree s) + 1)). rewrite (eval_coeffs K l x N) by (unfold N; lia).
    assert (HF : Forall (fun t => (0 <= fst t)%Z /\ (Z.to_nat (fst t) < N)%nat) s).
    { eapply Forall_impl; [|apply deg_fits; exact Hs]. cbn. intros. unfold N. lia. }
    rewrite (fsum_map_ext K _ (fun i => scoeff s i * x ^ i)) by (intros; rewrite H; reflexivity).
    clearbody N. clear -HF. unfold seval. induction s as [|t s IH]; cbn [map fsum].
    - symmetry. apply fsum_map_zero. intros. rewrite scoeff_nil. ring.
    - inversion HF as [|? ? [F1 F2] F3]; subst. rewrite IH by exact F3.
      rewrite (fsum_map_ext K (fun i => scoeff (t :: s) i * x ^ i) (fun i => (if Nat.eqb i (Z.to_nat (fst t)) then snd t * x ^ i else 0) + scoeff s i * x ^ i)).
      2:{ intros i _. rewrite scoeff_delta by exact F1. destruct (Nat.eqb i (Z.to_nat (fst t))); ring. }
      rewrite fsum_map_add, (fsum_delta K (fun i => snd t * x ^ i)).
      destruct (Nat.leb_spec 0 (Z.to_nat (fst t))), (Nat.ltb_spec (Z.to_nat (fst t)) (0 + N)); cbn [andb]; try lia. reflexivity.
  Qed.

  (** ** Fold: the accumulator holds the most recent term first *)
  Lemma rev_sc_app : forall (a : sp) lo t, sc K lo a -> (forall u, In u a -> (fst u < fst t)%Z) -> (lo < fst t < 2 ^ 64)%Z -> snd t <> 0 -> sc K lo (a ++ [t]).
  Proof.
    induction a as [|u a IH]; intros lo t H Hu Ht Hn; cbn [app sc] in *; [auto|].
    destruct H as (H1 & H2 & H3). split; [exact H1|]. split; [exact H2|]. apply IH; auto; [|split; [apply Hu; left; reflexivity|lia]]. intros w Hw. apply Hu. right. exact Hw.
  Qed.
  Lemma sc_app_inv : forall (a : sp) lo t, sc K lo (a ++ [t]) -> sc K lo a /\ (forall u, In u a -> (fst u < fst t)%Z) /\ (lo < fst t < 2 ^ 64)%Z /\ snd t <> 0.
  Proof.
    induction a as [|u a IH]; intros lo t H; cbn [app sc] in *; [destruct H as (H1 & H2 & _); split; [exact I|]; split; [intros u []|]; split; [exact H1|exact H2]|].
    destruct H as (H1 & H2 & H3). destruct (IH _ _ H3) as (I1 & I2 & I3 & I4). repeat split; auto; try lia.
    intros w [->|Hw]; [lia|auto].
  Qed.
  Lemma fold_step_spec r (acc : sp) t m : sc K (-1) (rev acc) -> (forall u, In u acc -> (2 * fst u <= m)%Z) -> (m < fst t < 2 ^ 64)%Z -> (-1 <= m)%Z -> snd t <> 0 ->
    let acc' := sp_fold_step r acc t in
    sc K (-1) (rev acc') /\ (forall u, In u acc' -> (2 * fst u <= fst t)%Z) /\
    forall d, scoeff acc' d = scoeff acc d + (if (fst t =? 2 * Z.of_nat d)%Z then snd t else 0) + (if (fst t =? 2 * Z.of_nat d + 1)%Z then r * snd t else 0).
  Proof.
    intros Hs Hu Ht Hm Hn. cbv zeta. unfold sp_fold_step.
    pose proof (Z.div_mod (fst t) 2 ltac:(lia)) as DM. pose proof (Z.mod_pos_bound (fst t) 2 ltac:(lia)) as MB.
    assert (Hpos : (0 <= fst t / 2)%Z) by (apply Z.div_pos; lia).
    destruct (Z.eqb_spec (fst t mod 2) 0) as [E|E].
    - split; [|split].
      + cbn [rev]. apply rev_sc_app; auto; cbn [fst snd]; try lia. intros u Hin. apply in_rev in Hin. specialize (Hu u Hin). lia.
      + intros u [<-|Hin]; [cbn [fst]; lia|]. specialize (Hu u Hin). lia.
      + intros d. rewrite scoeff_cons. cbn [fst snd]. destruct (Z.eqb_spec (fst t / 2) (Z.of_nat d)), (Z.eqb_spec (fst t) (2 * Z.of_nat d)), (Z.eqb_spec (fst t) (2 * Z.of_nat d + 1)); try lia; ring.
    - assert (E1 : (fst t mod 2 = 1)%Z) by lia.
      assert (G : (forall u, In u acc -> (fst u < fst t / 2)%Z) ->
        let acc' := if iszero r then acc else ((fst t / 2)%Z, snd t * r) :: acc in
        sc K (-1) (rev acc') /\ (forall u, In u acc' -> (2 * fst u <= fst t)%Z) /\
        forall d, scoeff acc' d = scoeff acc d + (if (fst t =? 2 * Z.of_nat d)%Z then snd t else 0) + (if (fst t =? 2 * Z.of_nat d + 1)%Z then r * snd t else 0)).
      { intros HG. cbv zeta. destruct (iszero r) eqn:Er.
        - apply iszero_eq in Er. subst r. split; [exact Hs|]. split; [intros u Hin; specialize (Hu u Hin); lia|].
          intros d. destruct (Z.eqb_spec (fst t) (2 * Z.of_nat d)), (Z.eqb_spec (fst t) (2 * Z.of_nat d + 1)); try lia; ring.
        - apply iszero_neq in Er. split; [|split].
          + cbn [rev]. apply rev_sc_app; auto; cbn [fst snd]; try lia; [|apply fmul_neq0; auto]. intros u Hin. apply in_rev in Hin. auto.
          + intros u [<-|Hin]; [cbn [fst]; lia|]. specialize (Hu u Hin). lia.
          + intros d. rewrite scoeff_cons. cbn [fst snd]. destruct (Z.eqb_spec (fst t / 2) (Z.of_nat d)), (Z.eqb_spec (fst t) (2 * Z.of_nat d)), (Z.eqb_spec (fst t) (2 * Z.of_nat d + 1)); try lia; ring. }
      destruct acc as [|[d0 c0] rest]; [apply G; intros u []|].
      cbn [rev] in Hs. destruct (sc_app_inv _ _ _ Hs) as (S1 & S2 & S3 & S4). cbn [fst snd] in *.
      destruct (Z.eqb_spec d0 (fst t / 2)) as [Ed|Ed].
      + set (c := if iszero r then c0 else c0 + snd t * r).
        assert (Hc : c = c0 + r * snd t). { unfold c. destruct (iszero r) eqn:Er; [apply iszero_eq in Er; subst r; ring|ring]. }
        destruct (iszero c) eqn:Ez.
        * apply iszero_eq in Ez. split; [exact S1|]. split; [intros u Hin; specialize (Hu u (or_intror Hin)); lia|].
          intros d. rewrite scoeff_cons. cbn [fst snd].
          destruct (Z.eqb_spec d0 (Z.of_nat d)), (Z.eqb_spec (fst t) (2 * Z.of_nat d)), (Z.eqb_spec (fst t) (2 * Z.of_nat d + 1)); try lia; try ring.
          transitivity ((c0 + r * snd t) + scoeff rest d); [rewrite <- Hc, Ez; ring|ring].
        * apply iszero_neq in Ez. split; [|split].
          -- cbn [rev]. apply rev_sc_app; auto.
          -- intros u [<-|Hin]; [cbn [fst]; lia|]. specialize (Hu u (or_intror Hin)). lia.
          -- intros d. rewrite !scoeff_cons. cbn [fst snd]. rewrite Hc.
             destruct (Z.eqb_spec d0 (Z.of_nat d)), (Z.eqb_spec (fst t) (2 * Z.of_nat d)), (Z.eqb_spec (fst t) (2 * Z.of_nat d + 1)); try lia; ring.
      + apply G. intros u Hin. pose proof (Hu (d0, c0) (or_introl eq_refl)) as H0. cbn [fst] in H0.
        destruct Hin as [<-|Hin]; cbn [fst]; [lia|]. assert (Hlt : (fst u < d0)%Z) by (apply S2; apply in_rev; rewrite rev_involutive; exact Hin). lia.
  Qed.
  Lemma fold_loop_spec r : forall (s : sp) m acc, sc K m s -> (-1 <= m)%Z -> sc K (-1) (rev acc) -> (forall u, In u acc -> (2 * fst u <= m)%Z) ->
    let acc' := fold_left (sp_fold_step r) s acc in
    sc K (-1) (rev acc') /\ (forall u, In u acc' -> (2 * fst u <= Z.max m (sp_degree s))%Z) /\
    forall d, scoeff acc' d = scoeff acc d + folded (scoeff s) r d.
  Proof.
    induction s as [|t s IH]; intros m acc Hs Hm Ha Hu; cbv zeta; cbn [fold_left].
    - split; [exact Ha|]. split; [intros u Hin; specialize (Hu u Hin); cbn [sp_degree]; lia|]. intros d. unfold folded. rewrite !scoeff_nil. ring.
    - pose proof (sc_le_degree K _ _ Hs) as [HL1 HL2]. specialize (HL2 ltac:(discriminate)). inversion HL1 as [|? ? HL3 _]; subst.
      assert (Hdeg : s <> [] -> sp_degree (t :: s) = sp_degree s) by (intros Hn; destruct s; [congruence|reflexivity]).
      cbn [sc] in Hs. destruct Hs as (S1 & S2 & S3).
      destruct (fold_step_spec r acc t m Ha Hu S1 Hm S2) as (F1 & F2 & F3).
      destruct (IH (fst t) (sp_fold_step r acc t) S3 ltac:(lia) F1 F2) as (I1 & I2 & I3).
      split; [exact I1|]. split.
      + intros u Hin. specialize (I2 u Hin). destruct s as [|w s]; [cbn [sp_degree last fst] in *; lia|]. rewrite <- (Hdeg ltac:(discriminate)) in I2. lia.
      + intros d. rewrite I3, F3. unfold folded. rewrite !(scoeff_cons K t).
        replace (Z.of_nat (2 * d)) with (2 * Z.of_nat d)%Z by lia. replace (Z.of_nat (2 * d + 1)) with (2 * Z.of_nat d + 1)%Z by lia.
        destruct (fst t =? 2 * Z.of_nat d)%Z, (fst t =? 2 * Z.of_nat d + 1)%Z; ring.
  Qed.
  Lemma sp_fold_spec md (s : sp) r : scanonical s -> (sp_degree s <= md)%Z -> exists s', sp_fold md s r = Some s' /\ srepresents s' (folded (scoeff s) r).
  Proof.
    intros Hs Hd. unfold sp_fold. pose proof (degree_nonneg s Hs) as Hn.
    destruct (fold_loop_spec r s (-1) []) as (I1 & I2 & I3); [apply sc_iff; exact Hs|lia|exact I|intros u []|].
    rewrite sp_make_id.
    - eexists. split; [reflexivity|]. split; [apply sc_iff; exact I1|]. intros d.
      rewrite <- (scoeff_perm K _ _ d (Permutation_rev _)), I3, scoeff_nil. ring.
    - apply sp_degree_bound; [lia|]. apply Forall_forall. intros u Hin.
      pose proof (sc_above K _ _ I1) as HA. rewrite Forall_forall in HA. specialize (HA u Hin). apply in_rev in Hin. specialize (I2 u Hin). lia.
  Qed.
End P.
