(** Groth16 against provers that combine the elements of the key with fixed weights. *)
From Coq Require Import ZArith Lia List Bool Arith Ring Field Field_theory.
From Verif Require Import Field PolySpec PolyProof PolyProof3 FFTModel FFTSpec FFTProof FFTProof5 FFTExtra R1csModel R1csSpec QapModel QapSpec QapProof QapProof2 GrothModel GrothSpec GrothProof GrothProof2.
Import ListNotations.

Section Extract.
  Variable K : fld.
  Add Field Kg6 : (fld_theory K).
  Open Scope fld_scope.
  Lemma roots4 (c0 c1 c2 c3 : K) (xs : list K) : NoDup xs -> (4 <= length xs)%nat -> (forall x, In x xs -> c0 + c1 * x + c2 * x * x + c3 * x * x * x = 0) -> c0 = 0 /\ c1 = 0 /\ c2 = 0 /\ c3 = 0.
  Proof.
    intros Hn Hl H. pose proof (roots_bound K xs [c0; c1; c2; c3] Hn Hl) as R. assert (Z : forall x, In x xs -> eval [c0; c1; c2; c3] x = 0).
    { intros x Hx. rewrite !eval_cons, eval_nil. etransitivity; [|exact (H x Hx)]. ring. }
    specialize (R Z). exact (conj (R 0%nat) (conj (R 1%nat) (conj (R 2%nat) (R 3%nat)))).
  Qed.
  Lemma roots3 (c0 c1 c2 : K) (xs : list K) : NoDup xs -> (3 <= length xs)%nat -> (forall x, In x xs -> c0 + c1 * x + c2 * x * x = 0) -> c0 = 0 /\ c1 = 0 /\ c2 = 0.
  Proof.
    intros Hn Hl H. pose proof (roots_bound K xs [c0; c1; c2] Hn Hl) as R. assert (Z : forall x, In x xs -> eval [c0; c1; c2] x = 0).
    { intros x Hx. rewrite !eval_cons, eval_nil. etransitivity; [|exact (H x Hx)]. ring. }
    specialize (R Z). exact (conj (R 0%nat) (conj (R 1%nat) (R 2%nat))).
  Qed.
  Lemma roots2 (c0 c1 : K) (xs : list K) : NoDup xs -> (2 <= length xs)%nat -> (forall x, In x xs -> c0 + c1 * x = 0) -> c0 = 0 /\ c1 = 0.
  Proof.
    intros Hn Hl H. pose proof (roots_bound K xs [c0; c1] Hn Hl) as R. assert (Z : forall x, In x xs -> eval [c0; c1] x = 0).
    { intros x Hx. rewrite !eval_cons, eval_nil. etransitivity; [|exact (H x Hx)]. ring. }
    specialize (R Z). exact (conj (R 0%nat) (R 1%nat)).
  Qed.

  (** At one secret point x the values of the polynomials are constants; the equation as an identity in the other secrets. *)
  Lemma identity_in_secrets (Sa Sb Sg Sd : list K) (Aa Ab Ad P Ua Ub Uc Va Vb Vh Bb Bg Bd Q Ia Ib Ic Ca Cb Cd R Ta Tb Tc Wa Wb Wh : K) :
    NoDup Sa -> NoDup Sb -> NoDup Sg -> NoDup Sd -> (2 <= length Sa)%nat -> (3 <= length Sb)%nat -> (3 <= length Sg)%nat -> (4 <= length Sd)%nat -> ~ In 0 Sg -> ~ In 0 Sd ->
    (forall al be ga de, In al Sa -> In be Sb -> In ga Sg -> In de Sd ->
       (Aa * al + Ab * be + Ad * de + P + (be * Ua + al * Ub + Uc) * finv ga + (be * Va + al * Vb + Vh) * finv de) * (Bb * be + Bg * ga + Bd * de + Q)
       = al * be + (be * Ia + al * Ib + Ic) + (Ca * al + Cb * be + Cd * de + R + (be * Ta + al * Tb + Tc) * finv ga + (be * Wa + al * Wb + Wh) * finv de) * de) ->
    (Ia + Wa) * (Ib + Wb) = Ic + Wh.
  Proof.
    intros Na Nb Ng Nd La Lb Lg Ld Zg Zd H.
    (* in gamma *)
    assert (HG : forall al be de, In al Sa -> In be Sb -> In de Sd ->
      let A0 := Aa * al + Ab * be + Ad * de + P + (be * Va + al * Vb + Vh) * finv de in
      A0 * (Bb * be + Bd * de + Q) + (be * Ua + al * Ub + Uc) * Bg - al * be - (be * Ia + al * Ib + Ic) - (Ca * al + Cb * be + Cd * de + R + (be * Wa + al * Wb + Wh) * finv de) * de = 0 /\ A0 * Bg = 0).
    { intros al be de Hal Hbe Hde A0. assert (de <> 0) by (intros E; apply Zd; rewrite <- E; exact Hde).
      destruct (roots3 ((be * Ua + al * Ub + Uc) * (Bb * be + Bd * de + Q) - (be * Ta + al * Tb + Tc) * de)
        (A0 * (Bb * be + Bd * de + Q) + (be * Ua + al * Ub + Uc) * Bg - al * be - (be * Ia + al * Ib + Ic) - (Ca * al + Cb * be + Cd * de + R + (be * Wa + al * Wb + Wh) * finv de) * de)
        (A0 * Bg) Sg Ng Lg) as (_ & R1 & R2); [|split; assumption].
      intros ga Hga. assert (ga <> 0) by (intros E; apply Zg; rewrite <- E; exact Hga). specialize (H al be ga de Hal Hbe Hga Hde). apply (proj2 (fsub_eq0 K _ _)) in H.
      match type of H with ?x = 0 => transitivity (x * ga); [|rewrite H; ring] end. unfold A0. field. split; assumption. }
    (* in delta *)
    assert (HD : forall al be, In al Sa -> In be Sb ->
      (Aa * al + Ab * be + P) * (Bb * be + Q) + (be * Va + al * Vb + Vh) * Bd + (be * Ua + al * Ub + Uc) * Bg - al * be - (be * Ia + al * Ib + Ic) - (be * Wa + al * Wb + Wh) = 0 /\
      (be * Va + al * Vb + Vh) * (Bb * be + Q) = 0 /\ (Aa * al + Ab * be + P) * Bg = 0).
    { intros al be Hal Hbe.
      destruct (roots4 ((be * Va + al * Vb + Vh) * (Bb * be + Q))
        ((Aa * al + Ab * be + P) * (Bb * be + Q) + (be * Va + al * Vb + Vh) * Bd + (be * Ua + al * Ub + Uc) * Bg - al * be - (be * Ia + al * Ib + Ic) - (be * Wa + al * Wb + Wh))
        (Ad * (Bb * be + Q) + (Aa * al + Ab * be + P) * Bd - (Ca * al + Cb * be + R)) (Ad * Bd - Cd) Sd Nd Ld) as (R0 & R1 & _ & _).
      { intros de Hde. assert (de <> 0) by (intros E; apply Zd; rewrite <- E; exact Hde). destruct (HG al be de Hal Hbe Hde) as [E _]. cbv zeta in E.
        match type of E with ?x = 0 => transitivity (x * de); [|rewrite E; ring] end. field. assumption. }
      destruct (roots4 ((be * Va + al * Vb + Vh) * Bg) ((Aa * al + Ab * be + P) * Bg) (Ad * Bg) 0 Sd Nd Ld) as (_ & R3 & _ & _).
      { intros de Hde. assert (de <> 0) by (intros E; apply Zd; rewrite <- E; exact Hde). destruct (HG al be de Hal Hbe Hde) as [_ E]. cbv zeta in E.
        match type of E with ?x = 0 => transitivity (x * de); [|rewrite E; ring] end. field. assumption. }
      split; [exact R1|]. split; [exact R0|exact R3]. }
    (* in alpha *)
    assert (HA : forall be, In be Sb ->
      Aa * (Bb * be + Q) + Vb * Bd + Ub * Bg - be - Ib - Wb = 0 /\
      (Ab * be + P) * (Bb * be + Q) + (be * Va + Vh) * Bd + (be * Ua + Uc) * Bg - (be * Ia + Ic) - (be * Wa + Wh) = 0 /\
      Vb * (Bb * be + Q) = 0 /\ (be * Va + Vh) * (Bb * be + Q) = 0 /\ Aa * Bg = 0).
    { intros be Hbe.
      destruct (roots2 ((Ab * be + P) * (Bb * be + Q) + (be * Va + Vh) * Bd + (be * Ua + Uc) * Bg - (be * Ia + Ic) - (be * Wa + Wh)) (Aa * (Bb * be + Q) + Vb * Bd + Ub * Bg - be - Ib - Wb) Sa Na La) as [R0 R1].
      { intros al Hal. destruct (HD al be Hal Hbe) as (E & _ & _). etransitivity; [|exact E]. ring. }
      destruct (roots2 ((be * Va + Vh) * (Bb * be + Q)) (Vb * (Bb * be + Q)) Sa Na La) as [R2 R3].
      { intros al Hal. destruct (HD al be Hal Hbe) as (_ & E & _). etransitivity; [|exact E]. ring. }
      destruct (roots2 ((Ab * be + P) * Bg) (Aa * Bg) Sa Na La) as [_ R4].
      { intros al Hal. destruct (HD al be Hal Hbe) as (_ & _ & E). etransitivity; [|exact E]. ring. }
      repeat split; assumption. }
    (* in beta *)
    destruct (roots3 (Aa * Q + Vb * Bd + Ub * Bg - Ib - Wb) (Aa * Bb - 1) 0 Sb Nb Lb) as (E1 & E2 & _).
    { intros be Hbe. destruct (HA be Hbe) as (E & _). etransitivity; [|exact E]. ring. }
    destruct (roots3 (P * Q + Vh * Bd + Uc * Bg - Ic - Wh) (Ab * Q + P * Bb + Va * Bd + Ua * Bg - Ia - Wa) (Ab * Bb) Sb Nb Lb) as (E3 & E4 & E5).
    { intros be Hbe. destruct (HA be Hbe) as (_ & E & _). etransitivity; [|exact E]. ring. }
    destruct (roots3 (Vb * Q) (Vb * Bb) 0 Sb Nb Lb) as (_ & E6 & _).
    { intros be Hbe. destruct (HA be Hbe) as (_ & _ & E & _). etransitivity; [|exact E]. ring. }
    destruct (roots3 (Vh * Q) (Va * Q + Vh * Bb) (Va * Bb) Sb Nb Lb) as (_ & E7 & E8).
    { intros be Hbe. destruct (HA be Hbe) as (_ & _ & _ & E & _). etransitivity; [|exact E]. ring. }
    assert (E9 : Aa * Bg = 0). { destruct Sb as [|b0 Sb']; [cbn in Lb; lia|]. destruct (HA b0 (or_introl eq_refl)) as (_ & _ & _ & _ & E). exact E. }
    apply (proj1 (fsub_eq0 K _ _)) in E2.
    assert (Za : Aa <> 0) by (intros E; apply (f1_neq_0 K); rewrite <- E2, E; ring). assert (Zb : Bb <> 0) by (intros E; apply (f1_neq_0 K); rewrite <- E2, E; ring).
    assert (NZ : forall x y : K, x * y = 0 -> y <> 0 -> x = 0) by (intros x y E N; destruct (fmul_integral K x y E); [assumption|contradiction]).
    apply NZ in E5; [|exact Zb]. apply NZ in E6; [|exact Zb]. apply NZ in E8; [|exact Zb]. rewrite E8 in E7.
    assert (E7' : Vh = 0) by (apply (NZ _ Bb); [etransitivity; [|exact E7]; ring|exact Zb]). assert (E9' : Bg = 0) by (apply (NZ _ Aa); [etransitivity; [|exact E9]; ring|exact Za]).
    rewrite E5, E6, E7', E8, E9' in *.
    assert (F1 : Ib + Wb = Aa * Q) by (apply (proj1 (fsub_eq0 K _ _)); match type of E1 with ?x = 0 => transitivity (- x); [ring|rewrite E1; ring] end).
    assert (F2 : Ia + Wa = P * Bb) by (apply (proj1 (fsub_eq0 K _ _)); match type of E4 with ?x = 0 => transitivity (- x); [ring|rewrite E4; ring] end).
    assert (F3 : Ic + Wh = P * Q) by (apply (proj1 (fsub_eq0 K _ _)); match type of E3 with ?x = 0 => transitivity (- x); [ring|rewrite E3; ring] end).
    rewrite F1, F2, F3. transitivity (Aa * Bb * (P * Q)); [ring|rewrite E2; ring].
  Qed.
End Extract.

Section Algebraic.
  Context {K : fld} {G1 G2 GT : group K}.
  Add Field Kg7 : (fld_theory K).
  Open Scope fld_scope.
  Lemma weighted_fixed {G : group K} (g : G) : forall ws ss : list K, length ws = length ss -> weighted ws (fixed_base g ss) = (inner ws ss ** g)%grp.
  Proof.
    intros ws ss L. pose proof (msm_fixed g ss ws (eq_sym L)) as M. unfold msm_run in M. unfold fixed_base in M at 1. rewrite map_length, L, Nat.eqb_refl in M. injection M as M. rewrite <- msm_weighted. exact M.
  Qed.

  Lemma algebraic_sound (ep : pairing G1 G2 GT) (e : env K) (g1 : G1) (g2 : G2) (calls : circuit K) (wA wC : weights1 K) (wB : weights2 K) (public Sa Sb Sg Sd Sx : list K) :
    env_ok e -> proper calls -> (constraints calls + (1 + length (instances calls)) <= 2 ^ e_adicity e)%nat -> ep g1 g2 <> gzero ->
    sized calls wA -> sized calls wC -> length (w2_b wB) = (1 + length (instances calls) + length (witnesses calls))%nat -> length public = length (instances calls) ->
    NoDup Sa -> NoDup Sb -> NoDup Sg -> NoDup Sd -> NoDup Sx -> (2 <= length Sa)%nat -> (3 <= length Sb)%nat -> (3 <= length Sg)%nat -> (4 <= length Sd)%nat ->
    (2 * 2 ^ domain_log calls - 1 <= length Sx)%nat -> ~ In 0 Sg -> ~ In 0 Sd ->
    (forall al be ga de x, In al Sa -> In be Sb -> In ga Sg -> In de Sd -> In x Sx ->
       exists pk, pk_load e (mk_toxic al be ga de x g1 g2) calls = Some pk /\
         verify ep (prepare ep (pk_vk pk)) (mk_proof (in_first wA pk) (in_second wB pk) (in_first wC pk)) public = Some true) ->
    accepts calls (1 :: public) (w_witness wC).
  Proof.
    intros HE HP Hfit Hne (SA1 & SA2 & SA3 & SA4 & SA5) (SC1 & SC2 & SC3 & SC4 & SC5) SB Lp Na Nb Ng Nd Nx La Lb Lg Ld Lx Zg Zd Hall.
    destruct (run_spec e true calls HE HP Hfit) as (s & m & d & ER & HM & M1 & M2 & M3 & Hk & HR & Hn & Hacc & _).
    pose proof HE as (He1 & He2 & He3 & _). destruct (rdom_ok K _ _ _ _ _ He2 He3 Hk HR) as [_ HG].
    set (g := generator (e_adicity e) (e_root e) (domain_log calls)) in *. set (N := (2 ^ domain_log calls)%nat) in *.
    assert (HN : (0 < N)%nat) by (unfold N; pose proof (pow2_1 (domain_log calls)); lia).
    set (z := (1 :: public) ++ w_witness wC).
    assert (Lz : length z = (m_inst m + m_wit m)%nat) by (unfold z; rewrite app_length; cbn [length]; lia).
    apply (Hacc (1 :: public) (w_witness wC)); [cbn [length]; lia|reflexivity|lia|]. fold z.
    assert (KS : forall al be ga de x, _) by (intros al be ga de x; exact (pk_spec (G1 := G1) (G2 := G2) e (mk_toxic al be ga de x g1 g2) calls s m d HE ER HM Hk HR Hn)).
    cbn [t_alpha t_beta t_gamma t_delta t_x t_g1 t_g2] in KS. fold g N in KS.
    destruct (KS 0 0 0 0 0) as (q0 & lg0 & hq0 & lw0 & _ & _ & _ & _ & _ & _ & _ & _ & _ & _ & _ & _ & Hq0).
    destruct (Hq0 z Lz) as [(A & B & C & HQ) _]. clear q0 lg0 hq0 lw0 Hq0.
    apply (schwartz_zippel K m z g N A B C (w_h wC) Sx HG HN ltac:(lia) HQ ltac:(lia) Nx); [|exact Lx].
    intros x Hx. destruct (KS 0 0 0 0 x) as (q & lg0 & hq0 & lw0 & Eq & _ & _ & La0 & Lb0 & _ & _ & _ & _ & _ & _ & Lc0 & Hq0). clear lg0 hq0 lw0.
    destruct (Hq0 z Lz) as [_ Hz]. destruct (Hz A B C HQ) as (EA & EB & EC). clear Hq0 Hz.
    set (qa := q_a q) in *. set (qb := q_b q) in *. set (qc := q_c q) in *. set (ni := m_inst m) in *.
    assert (SP : forall l : list K, length l = (ni + m_wit m)%nat -> inner z l = inner (1 :: public) (firstn ni l) + inner (w_witness wC) (skipn ni l)).
    { intros l Ll. unfold z. rewrite inner_app by (rewrite Ll; cbn [length]; unfold ni; lia). replace (length (1 :: public)) with ni by (cbn [length]; unfold ni; lia). reflexivity. }
    rewrite (SP qa La0) in EA. rewrite (SP qb Lb0) in EB. rewrite (SP qc Lc0) in EC. rewrite <- EA, <- EB, <- EC.
    set (T := x ^ N - 1) in *.
    assert (ID := identity_in_secrets K Sa Sb Sg Sd (w_alpha wA) (w_beta wA) (w_delta wA) (inner (w_a wA) qa + inner (w_b wA) qb)
      (inner (w_public wA) (firstn ni qa)) (inner (w_public wA) (firstn ni qb)) (inner (w_public wA) (firstn ni qc))
      (inner (w_witness wA) (skipn ni qa)) (inner (w_witness wA) (skipn ni qb)) (inner (w_witness wA) (skipn ni qc) + eval (w_h wA) x * T)
      (w2_beta wB) (w2_gamma wB) (w2_delta wB) (inner (w2_b wB) qb)
      (inner (1 :: public) (firstn ni qa)) (inner (1 :: public) (firstn ni qb)) (inner (1 :: public) (firstn ni qc))
      (w_alpha wC) (w_beta wC) (w_delta wC) (inner (w_a wC) qa + inner (w_b wC) qb)
      (inner (w_public wC) (firstn ni qa)) (inner (w_public wC) (firstn ni qb)) (inner (w_public wC) (firstn ni qc))
      (inner (w_witness wC) (skipn ni qa)) (inner (w_witness wC) (skipn ni qb)) (inner (w_witness wC) (skipn ni qc) + eval (w_h wC) x * T) Na Nb Ng Nd La Lb Lg Ld Zg Zd).
    rewrite ID; [ring|]. clear ID. intros al be ga de Hal Hbe Hga Hde.
    assert (Zga : ga <> 0) by (intros E; apply Zg; rewrite <- E; exact Hga). assert (Zde : de <> 0) by (intros E; apply Zd; rewrite <- E; exact Hde).
    destruct (KS al be ga de x) as (q' & lg & hq & lw & Eq' & Epk & _ & _ & _ & Llg & Llw & Lhq & Hhq & Hlg & Hlw & _ & _). rewrite Eq in Eq'. injection Eq' as <-.
    fold qa qb qc ni in Epk, Hlg, Hlw. destruct (Hall al be ga de x Hal Hbe Hga Hde Hx) as (pk & Epk' & Hv). rewrite Epk in Epk'. injection Epk' as <-.
    assert (I0 : forall y : K, y <> 0 -> inv0 y = finv y) by (intros y Hy; unfold inv0; destruct (feqb y 0) eqn:Ey; [apply feqb_eq in Ey; contradiction|ring]).
    rewrite (I0 _ Zga) in Hlg. rewrite (I0 _ Zde) in Hlw, Hhq.
    assert (HH : forall h, length h = (N - 1)%nat -> inner h hq = eval h x * T * finv de).
    { intros h Lh. rewrite <- Hhq by lia. rewrite Lh, <- Lhq, firstn_all. reflexivity. }
    cbn [pk_vk] in Hv.
    assert (F1 : forall w, sized calls w -> in_first w (mk_pk (mk_vk (al ** g1)%grp (be ** g2)%grp (ga ** g2)%grp (de ** g2)%grp (fixed_base g1 lg)) (be ** g1)%grp (de ** g1)%grp
        (fixed_base g1 qa) (fixed_base g1 qb) (fixed_base g2 qb) (fixed_base g1 hq) (fixed_base g1 lw))
      = ((w_alpha w * al + w_beta w * be + w_delta w * de + (inner (w_a w) qa + inner (w_b w) qb) + (be * inner (w_public w) (firstn ni qa) + al * inner (w_public w) (firstn ni qb) + inner (w_public w) (firstn ni qc)) * finv ga
          + (be * inner (w_witness w) (skipn ni qa) + al * inner (w_witness w) (skipn ni qb) + (inner (w_witness w) (skipn ni qc) + eval (w_h w) x * T)) * finv de)%fld ** g1)%grp).
    { intros w (S1 & S2 & S3 & S4 & S5). unfold in_first. cbn [pk_vk pk_beta pk_delta pk_a pk_b1 pk_h pk_l vk_alpha vk_l]. fold N in S3.
      rewrite !weighted_fixed by lia. rewrite <- !gmul_mul, <- !gmul_add_l. f_equal. rewrite HH by exact S3. rewrite Hlg by (unfold ni; lia). rewrite Hlw by lia. ring. }
    rewrite !F1 in Hv by (repeat split; assumption). clear F1.
    assert (F2 : in_second wB (mk_pk (mk_vk (al ** g1)%grp (be ** g2)%grp (ga ** g2)%grp (de ** g2)%grp (fixed_base g1 lg)) (be ** g1)%grp (de ** g1)%grp
        (fixed_base g1 qa) (fixed_base g1 qb) (fixed_base g2 qb) (fixed_base g1 hq) (fixed_base g1 lw))
      = ((w2_beta wB * be + w2_gamma wB * ga + w2_delta wB * de + inner (w2_b wB) qb)%fld ** g2)%grp).
    { unfold in_second. cbn [pk_vk vk_beta vk_gamma vk_delta pk_b2]. rewrite weighted_fixed by lia. rewrite <- !gmul_mul, <- !gmul_add_l. reflexivity. }
    rewrite F2 in Hv. clear F2.
    match type of Hv with verify ep (prepare ep ?v) ?p _ = _ => destruct (verify_scalars ep v p public lg g1 g2 al be ga de _ _ _
        ltac:(intros E0; rewrite E0 in Llg; cbn in Llg; unfold ni in Llg; lia) eq_refl eq_refl ltac:(unfold ni in Llg; lia)) as [_ V] end.
    specialize (V Hne Hv). rewrite V. rewrite (Hlg (1 :: public)) by (cbn [length]; unfold ni; lia).
    replace ((be * inner (1 :: public) (firstn ni qa) + al * inner (1 :: public) (firstn ni qb) + inner (1 :: public) (firstn ni qc)) * finv ga * ga)
      with (be * inner (1 :: public) (firstn ni qa) + al * inner (1 :: public) (firstn ni qb) + inner (1 :: public) (firstn ni qc)) by (field; exact Zga). reflexivity.
  Qed.
End Algebraic.
Theorem groth_algebraic : forall (K : fld) (G1 G2 GT : group K) (ep : pairing G1 G2 GT) (e : env K) (g1 : G1) (g2 : G2) (calls : circuit K) (wA wC : weights1 K) (wB : weights2 K) (public Sa Sb Sg Sd Sx : list K),
    env_ok e -> proper calls -> (constraints calls + (1 + length (instances calls)) <= 2 ^ e_adicity e)%nat -> ep g1 g2 <> gzero ->
    sized calls wA -> sized calls wC -> length (w2_b wB) = (1 + length (instances calls) + length (witnesses calls))%nat -> length public = length (instances calls) ->
    NoDup Sa -> NoDup Sb -> NoDup Sg -> NoDup Sd -> NoDup Sx -> (2 <= length Sa)%nat -> (3 <= length Sb)%nat -> (3 <= length Sg)%nat -> (4 <= length Sd)%nat ->
    (2 * 2 ^ domain_log calls - 1 <= length Sx)%nat -> ~ In 0%fld Sg -> ~ In 0%fld Sd ->
    (forall al be ga de x, In al Sa -> In be Sb -> In ga Sg -> In de Sd -> In x Sx ->
       exists pk, pk_load e (mk_toxic al be ga de x g1 g2) calls = Some pk /\
         verify ep (prepare ep (pk_vk pk)) (mk_proof (in_first wA pk) (in_second wB pk) (in_first wC pk)) public = Some true) ->
    accepts calls (1%fld :: public) (w_witness wC).
Proof. intros K G1 G2 GT ep e g1 g2 calls wA wC wB. apply algebraic_sound. Qed.
