(** Groth16: assembly. *)
From Coq Require Import ZArith Lia List Bool Arith Ring Field Field_theory.
From Verif Require Import Field PolySpec FFTModel FFTSpec FFTProof FFTProof3 FFTProof4 FFTProof5 FFTExtra DomainProof DomainProof2 DomainExtra R1csModel R1csSpec QapModel QapSpec QapProof QapProof2 QapExtra GrothModel GrothSpec GrothProof GrothProof2.
Import ListNotations.

Section Assembly.
  Context {K : fld} {G1 G2 GT : group K}.
  Add Field Kg4 : (fld_theory K).
  Open Scope fld_scope.

  Lemma outcome (e : env K) (keygen calls : circuit K) : env_ok e -> proper calls -> same_circuit keygen calls ->
    (constraints calls + (1 + length (instances calls)) <= 2 ^ e_adicity e)%nat ->
    let g := generator (e_adicity e) (e_root e) (domain_log calls) in let N := (2 ^ domain_log calls)%nat in let z := 1 :: instances calls ++ witnesses calls in
    exists m h A B C, (m_con m <= N)%nat /\ (length h < N)%nat /\ primitive_root g N /\ qap_polys m z g N A B C /\
      (rows_hold m z <-> accepts calls (1 :: instances calls) (witnesses calls)) /\
      (rows_hold m z -> forall x, eval A x * eval B x - eval C x = eval h x * (x ^ N - 1)) /\
      forall (t : toxic_waste G1 G2), exists pk, pk_load e t keygen = Some pk /\ (vk_load e t keygen = if feqb (t_gamma t) 0 then None else Some (pk_vk pk)) /\
        length (vk_l (pk_vk pk)) = (1 + length (instances calls))%nat /\
        forall r s, exists pr, create_proof_with_reduction e calls pk r s = Some pr /\
          forall ep : pairing G1 G2 GT, t_gamma t <> 0 -> t_delta t <> 0 -> let x := t_x t in
            (eval A x * eval B x - eval C x = eval h x * (x ^ N - 1) -> verify ep (prepare ep (pk_vk pk)) pr (instances calls) = Some true) /\
            (ep (t_g1 t) (t_g2 t) <> gzero -> verify ep (prepare ep (pk_vk pk)) pr (instances calls) = Some true -> eval A x * eval B x - eval C x = eval h x * (x ^ N - 1)).
  Proof.
    intros HE HP HS Hfit g N z. pose proof HE as (He1 & He2 & He3 & He4 & He5 & He6 & He7).
    destruct (same_counts _ _ HS) as (Q1 & Q2 & Q3). assert (HL : domain_log keygen = domain_log calls) by (unfold domain_log; rewrite Q1, Q2; reflexivity).
    destruct (run_spec e false calls HE HP Hfit) as (s & m & d & ER & HM & M1 & M2 & M3 & Hk & HR & Hn & Hacc & Hass). destruct (Hass eq_refl) as [Ei Ew].
    assert (HP' : proper keygen) by (apply (same_wf calls); [apply same_sym; exact HS|exact HP]).
    destruct (run_spec e true keygen HE HP' ltac:(rewrite Q1, Q2; exact Hfit)) as (s' & m' & d' & ER' & _).
    destruct (runs_agree e true false keygen calls _ _ _ _ _ _ HS ER' ER) as [-> ->].
    destruct (rdom_ok K _ _ _ _ _ He2 He3 Hk HR) as [_ HG]. fold g in HG. fold N in HG.
    destruct (fresh_item K (e_adicity e) (e_root e) (domain_log calls) 1 d (e_small e) (e_threads e) (e_sched e) false He2 He3 Hk HR ltac:(lia) He4) as (it & Eit & Hit).
    assert (Hz : assignment m z).
    { split; [|reflexivity]. unfold z. cbn [length]. rewrite app_length, M2, M3. reflexivity. }
    assert (Hgen : e_gen e ^ (2 ^ domain_log calls) <> 1).
    { intros E. apply He6. replace (e_adicity e) with (domain_log calls + (e_adicity e - domain_log calls))%nat by lia. rewrite Nat.pow_add_r, fpow_mul, E, fpow_one. reflexivity. }
    destruct (witness_map_satisfied K (e_adicity e) (e_root e) (domain_log calls) d (e_small e) (e_threads e) (e_sched e) it (e_gen e) m z He2 He3 Hk HR Hn ltac:(lia) He4 Hit He5 Hgen HM Hz) as (h0 & Eh0 & Hsat).
    destruct (witness_map_spec K (e_adicity e) (e_root e) (domain_log calls) d (e_small e) (e_threads e) (e_sched e) it (e_gen e) m z He2 He3 Hk HR Hn ltac:(lia) He4 Hit He5 Hgen HM Hz) as (h1 & A & B & C & Eh1 & _ & Lh1 & HQ & _).
    rewrite Eh0 in Eh1. injection Eh1 as <-. fold g in HQ, Hsat. fold N in HQ, Hsat, Lh1, Hn.
    assert (HN : (0 < N)%nat) by (unfold N; pose proof (pow2_1 (domain_log calls)); lia).
    assert (Lt : (length (trim (N - 1) h0) < N)%nat).
    { unfold trim. destruct (Nat.ltb_spec (N - 1) (length h0)); [rewrite removelast_firstn_len, firstn_length; lia|lia]. }
    exists m, (trim (N - 1) h0), A, B, C. split; [lia|]. split; [exact Lt|]. split; [exact HG|]. split; [exact HQ|].
    split. { apply (Hacc (1 :: instances calls) (witnesses calls)); [cbn [length]; lia|reflexivity|lia]. }
    split. { intros Hr x. destruct (Hsat Hr) as [Lh Hid]. unfold trim. destruct (Nat.ltb_spec (N - 1) (length h0)); [lia|]. apply Hid. exact HQ. }
    intros t. rewrite <- HL in Hk, HR. destruct (pk_spec (G1 := G1) (G2 := G2) e t keygen s' m d HE ER' HM Hk HR ltac:(rewrite HL; exact Hn)) as (q & lg & hq & lw & Eqm & Epk & Evk & La & Lb & Llg & Llw & Lhq & Hhq & Hlg & Hlw & Lc & Hq).
    set (qa := q_a q) in *. set (qb := q_b q) in *. set (qc := q_c q) in *. rewrite HL in Hq, Lhq, Hhq. fold g in Hq. fold N in Hq, Lhq, Hhq.
    eexists. split; [exact Epk|]. split; [exact Evk|]. split; [cbn [pk_vk vk_l]; unfold fixed_base; rewrite map_length; lia|].
    intros r w. unfold create_proof_with_reduction. rewrite ER, Eit, Ei, Ew. change ((1 :: instances calls) ++ witnesses calls) with z. rewrite Eh0. unfold z at 1.
    destruct (proof_spec (t_g1 t) (t_g2 t) (t_alpha t) (t_beta t) (t_gamma t) (t_delta t) r w lg qa qb hq lw h0 (witnesses calls) (instances calls ++ witnesses calls)
                ltac:(rewrite app_length; lia) ltac:(rewrite app_length; lia) ltac:(lia) ltac:(lia)) as [Lt' Ep].
    eexists. split; [exact Ep|]. intros ep Hg Hd. set (x := t_x t). cbn [pk_vk].
    match goal with |- context [verify ep (prepare ep ?v) ?q _] => 
      destruct (verify_scalars ep v q (instances calls) lg (t_g1 t) (t_g2 t) (t_alpha t) (t_beta t) (t_gamma t) (t_delta t) _ _ _
        ltac:(intros E0; rewrite E0 in Llg; cbn in Llg; lia) eq_refl eq_refl ltac:(lia)) as [V1 V2];
      set (V := verify ep (prepare ep v) q (instances calls)) in *; clearbody V end.
    rewrite Lhq in V1, V2. rewrite Hhq in V1, V2 by exact Lt. fold z in V1, V2.
    assert (Lz : length z = (m_inst m + m_wit m)%nat) by apply Hz.
    destruct (Hq z Lz) as [_ Hq2]. destruct (Hq2 A B C HQ) as (EA & EB & EC). fold x in EA, EB, EC.
    rewrite (Hlg (1 :: instances calls)) in V1, V2 by (cbn [length]; lia). rewrite (Hlw (witnesses calls)) in V1, V2 by lia.
    assert (SP : forall q : list K, length q = (m_inst m + m_wit m)%nat -> inner z q = inner (1 :: instances calls) (firstn (m_inst m) q) + inner (witnesses calls) (skipn (m_inst m) q)).
    { intros l Ll. change z with ((1 :: instances calls) ++ witnesses calls). rewrite inner_app by (rewrite Ll; cbn [length]; lia). cbn [length]. rewrite M2. reflexivity. }
    rewrite (SP qa La) in EA, V1, V2. rewrite (SP qb Lb) in EB, V1, V2. rewrite (SP qc Lc) in EC. fold x in V1, V2.
    assert (I0 : forall y : K, y <> 0 -> inv0 y = finv y) by (intros y Hy; unfold inv0; destruct (feqb y 0) eqn:Ey; [apply feqb_eq in Ey; contradiction|ring]).
    rewrite (I0 _ Hg), (I0 _ Hd) in V1, V2. rewrite <- EA, <- EB, <- EC.
    pose proof (equation (t_alpha t) (t_beta t) (t_gamma t) (t_delta t) r w
      (inner (1 :: instances calls) (firstn (m_inst m) qa)) (inner (witnesses calls) (skipn (m_inst m) qa)) (inner (1 :: instances calls) (firstn (m_inst m) qb)) (inner (witnesses calls) (skipn (m_inst m) qb))
      (inner (1 :: instances calls) (firstn (m_inst m) qc)) (inner (witnesses calls) (skipn (m_inst m) qc)) (eval (trim (N - 1) h0) x * (x ^ N - 1)) Hg Hd) as EQ. cbv zeta in EQ.
    split; intros H.
    - apply V1. apply EQ. exact H.
    - intros HV. apply EQ. apply V2; assumption.
  Qed.
End Assembly.

Theorem groth_complete : forall (K : fld) (G1 G2 GT : group K) (ep : pairing G1 G2 GT) (e : env K) (t : toxic_waste G1 G2) (keygen calls : circuit K) (r s : K),
  env_ok e -> proper calls -> same_circuit keygen calls -> (constraints calls + (1 + length (instances calls)) <= 2 ^ e_adicity e)%nat -> t_gamma t <> 0%fld -> t_delta t <> 0%fld ->
  accepts calls (1%fld :: instances calls) (witnesses calls) ->
  exists pk pr, pk_load e t keygen = Some pk /\ vk_load e t keygen = Some (pk_vk pk) /\ create_proof_with_reduction e calls pk r s = Some pr /\ verify ep (prepare ep (pk_vk pk)) pr (instances calls) = Some true.
Proof.
  intros K G1 G2 GT ep e t keygen calls r s HE HP HS Hf Hg Hd Ha.
  destruct (outcome (G1 := G1) (G2 := G2) (GT := GT) e keygen calls HE HP HS Hf) as (m & h & A & B & C & _ & _ & _ & _ & Hr & Hid & H).
  destruct (H t) as (pk & Epk & Evk & _ & Hpr). destruct (Hpr r s) as (pr & Epr & Hv). exists pk, pr. split; [exact Epk|]. split; [|split; [exact Epr|]].
  - rewrite Evk. destruct (feqb (t_gamma t) 0%fld) eqn:E0; [apply feqb_eq in E0; contradiction|reflexivity].
  - apply (Hv ep Hg Hd). apply Hid. apply Hr. exact Ha.
Qed.
Theorem groth_sound : forall (K : fld) (G1 G2 GT : group K) (ep : pairing G1 G2 GT) (e : env K) (t : toxic_waste G1 G2) (keygen calls : circuit K) (xs : list K),
  env_ok e -> proper calls -> same_circuit keygen calls -> (constraints calls + (1 + length (instances calls)) <= 2 ^ e_adicity e)%nat -> t_gamma t <> 0%fld -> t_delta t <> 0%fld -> ep (t_g1 t) (t_g2 t) <> gzero ->
  ~ accepts calls (1%fld :: instances calls) (witnesses calls) ->
  NoDup xs -> (forall x, In x xs -> exists pk r s pr, pk_load e (with_x t x) keygen = Some pk /\ create_proof_with_reduction e calls pk r s = Some pr /\ verify ep (prepare ep (pk_vk pk)) pr (instances calls) = Some true) ->
  (length xs <= 2 * 2 ^ domain_log calls - 2)%nat.
Proof.
  intros K G1 G2 GT ep e t keygen calls xs HE HP HS Hf Hg Hd Hn Ha HX Hall.
  destruct (outcome (G1 := G1) (G2 := G2) (GT := GT) e keygen calls HE HP HS Hf) as (m & h & A & B & C & Hc & Lh & HG & HQ & Hr & _ & H).
  set (N := (2 ^ domain_log calls)%nat) in *. destruct (Nat.le_gt_cases (length xs) (2 * N - 2)) as [L|L]; [exact L|]. exfalso. apply Ha, Hr.
  apply (schwartz_zippel K m _ _ N A B C h xs HG ltac:(lia) Hc HQ Lh HX); [|lia].
  intros x Hx. destruct (Hall x Hx) as (pk & r & s & pr & Epk & Epr & Ev). destruct (H (with_x t x)) as (pk' & Epk' & _ & _ & Hpr). rewrite Epk in Epk'. injection Epk' as <-.
  destruct (Hpr r s) as (pr' & Epr' & Hv). rewrite Epr in Epr'. injection Epr' as <-. exact (proj2 (Hv ep Hg Hd) Hn Ev).
Qed.
