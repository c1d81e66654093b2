(** Proofs about Groth16: the keys, the prover, and the circuit behind them. *)
From Coq Require Import ZArith Lia List Bool Arith Ring Field Field_theory.
From Verif Require Import Field ParallelizeModel SemigroupModel SemigroupProof PolySpec PolyProof FFTModel FFTSpec FFTProof FFTExtra DomainSpec R1csModel R1csSpec R1csProof4 R1csProof6
  QapModel QapSpec QapProof QapProof2 QapExtra GrothModel GrothSpec GrothProof.
Import ListNotations.

Section Circuit.
  Context {K : fld}.
  Lemma same_sym (c c' : circuit K) : same_circuit c c' -> same_circuit c' c.
  Proof. unfold same_circuit. induction 1 as [|x y l l' H _ IH]; constructor; [|exact IH]. destruct x, y; cbn in *; congruence || exact Logic.I || discriminate. Qed.
  Lemma same_counts (c c' : circuit K) : same_circuit c c' -> constraints c = constraints c' /\ length (instances c) = length (instances c') /\ length (witnesses c) = length (witnesses c').
  Proof.
    unfold same_circuit, constraints. induction 1 as [|x y l l' H _ (H1 & H2 & H3)]; [repeat split|].
    destruct x, y; cbn in H; try discriminate H; cbn [filter instances witnesses flat_map app length]; fold (instances l) (instances l') (witnesses l) (witnesses l'); repeat split; lia.
  Qed.
  Lemma same_wf (c c' : circuit K) : same_circuit c c' -> forall ni nw nl user, well_formed ni nw nl user c -> well_formed ni nw nl user c'.
  Proof.
    unfold same_circuit. induction 1 as [|x y l l' H _ IH]; intros ni nw nl user W; [exact Logic.I|].
    destruct x, y; cbn in H; try discriminate H; try (injection H; intros; subst); cbn [well_formed] in W |- *; try (apply IH; exact W).
    - destruct W as [W1 W2]. split; [exact W1|]. apply IH, W2.
    - destruct W as [W1 W2]. split; [exact W1|]. apply IH, W2.
  Qed.

  (** Without outlining, Finalize adds no constraint. *)
  Lemma synthesize_con (calls : circuit K) : forall s s', synthesize s calls = Some s' -> n_con s' = (n_con s + constraints calls)%nat /\ goal_weight s' = goal_weight s.
  Proof.
    induction calls as [|c calls IH]; intros s s' H; cbn [synthesize] in H.
    - injection H as <-. split; [cbn; lia|reflexivity].
    - destruct c as [v|v|l|a b d].
      + apply IH in H. destruct H as [H1 H2]. split; [rewrite H1; reflexivity|rewrite H2; reflexivity].
      + apply IH in H. destruct H as [H1 H2]. split; [rewrite H1; reflexivity|rewrite H2; reflexivity].
      + apply IH in H. destruct H as [H1 H2]. split; [rewrite H1; reflexivity|rewrite H2; reflexivity].
      + unfold enforce in H. destruct (should_construct s); [|discriminate H]. cbn [create_lc] in H. apply IH in H. destruct H as [H1 H2]. split; [|rewrite H2; reflexivity].
        rewrite H1. exact (Nat.add_succ_comm (n_con s) (constraints calls)).
  Qed.
  Lemma transform_new sort u i old : forall todo (st st' : tstate K), transform_loop sort false u i old todo st = Some st' -> t_new st' = t_new st.
  Proof.
    induction todo as [|e todo IH]; intros st st' H; cbn [transform_loop] in H; [injection H as <-; reflexivity|].
    destruct (transform_entry sort false u i old st e) as [st1|] eqn:E; [|discriminate H]. rewrite (IH _ _ H). unfold transform_entry in E.
    destruct (inline_terms (snd e) [] (t_map st) (t_used st)) as [[[o m] us]|]; [|discriminate E]. destruct (nth_error us (fst e)); [|discriminate E]. cbn [andb] in E. injection E as <-. reflexivity.
  Qed.
  Lemma finalize_con sort (s s' : cs K) : goal_weight s = false -> finalize sort s = Some s' -> n_con s' = n_con s.
  Proof.
    intros Hg H. unfold finalize in H. destruct (should_construct s); [|injection H as <-; reflexivity].
    destruct (compute_times_used false (lc_map s)) as [used|]; [|discriminate H]. rewrite Hg in H.
    destruct (transform_loop sort false (setup s) (inst s) (lc_map s) (lc_map s) (mk_t [] used (n_wit s) (wit s) [])) as [st|] eqn:E; [|discriminate H].
    apply transform_new in E. cbn [t_new] in E. rewrite E in H. cbn [enforce_new] in H. injection H as <-. reflexivity.
  Qed.
  Lemma matrices_con (s : cs K) m : to_matrices s = Some (Some m) -> m_con m = n_con s.
  Proof.
    intros H. unfold to_matrices in H. destruct (should_construct s); [|discriminate H].
    repeat match type of H with context [match ?x with _ => _ end] => destruct x; try discriminate H end. injection H as <-. reflexivity.
  Qed.

  (** What both sides get from the circuit. *)
  Lemma run_spec (e : env K) (u : bool) (calls : circuit K) : env_ok e -> proper calls -> (constraints calls + (1 + length (instances calls)) <= 2 ^ e_adicity e)%nat ->
    exists s m d, run_circuit e u calls = Some (s, m, d) /\ well_shaped m /\ m_con m = constraints calls /\ m_inst m = (1 + length (instances calls))%nat /\ m_wit m = length (witnesses calls) /\
      (domain_log calls <= e_adicity e)%nat /\ radix2_domain (e_adicity e) (e_root e) (domain_log calls) 1%fld d /\ (m_con m + m_inst m <= 2 ^ domain_log calls)%nat /\
      (forall I W, length I = m_inst m -> nth 0 I 0%fld = 1%fld -> length W = m_wit m -> (rows_hold m (I ++ W) <-> accepts calls I W)) /\
      (u = false -> inst s = 1%fld :: instances calls /\ wit s = witnesses calls).
  Proof.
    intros (He1 & He2 & He3 & He4 & He5 & He6 & He7) HP Hfit.
    destruct (finalize_sound K (e_sort e) u true false calls He7 HP (or_intror eq_refl)) as (s & s' & m & H1 & H2 & H3 & Hw & H4 & H5 & H6 & H7 & H8 & H9).
    destruct (synthesize_con calls _ _ H1) as [C1 G1]. cbn [new_cs n_con goal_weight] in C1, G1. pose proof (finalize_con _ _ _ G1 H2) as C2. pose proof (matrices_con _ _ H3) as C3.
    assert (C : m_con m = constraints calls) by lia. specialize (H6 eq_refl).
    assert (Hz : (Z.of_nat (constraints calls + (1 + length (instances calls))) <= 2 ^ 63)%Z).
    { assert ((2 ^ e_adicity e <= 2 ^ 62)%nat) by (apply Nat.pow_le_mono_r; lia). apply Nat2Z.inj_le in H. rewrite Nat2Z.inj_pow in H. cbn [Z.of_nat] in H. apply Nat2Z.inj_le in Hfit. rewrite Nat2Z.inj_pow in Hfit.
      assert ((2 ^ Z.of_nat (e_adicity e) <= 2 ^ 63)%Z) by (apply Z.pow_le_mono_r; lia). lia. }
    pose proof (create_spec K (e_adicity e) (e_root e) _ He2 He3 Hz) as HC.
    unfold run_circuit. rewrite H1, H2, H3, C, H4.
    destruct (create_domain (e_adicity e) (e_root e) (constraints calls + (1 + length (instances calls)))) as [d|]; [|lia].
    destruct HC as (k & Hk & _ & Hn & Hmin & HR & _ & _).
    assert (Ek : k = domain_log calls).
    { unfold domain_log. set (n := (constraints calls + (1 + length (instances calls)))%nat) in *. apply Nat.le_antisymm.
      - apply Hmin. assert (Hn0 : (0 < n)%nat) by (unfold n; lia). destruct (Nat.eq_dec n 1) as [E1|N1]; [rewrite E1; cbn; lia|]. apply (Nat.log2_up_spec n). lia.
      - destruct (Nat.le_gt_cases (Nat.log2_up n) k) as [L|L]; [exact L|]. apply Nat.log2_up_lt_pow2 in L; [lia|unfold n; lia]. }
    subst k. exists s', m, d. split; [reflexivity|]. split; [exact Hw|]. split; [exact C|]. split; [exact H4|]. split; [exact H6|]. split; [exact Hk|]. split; [exact HR|]. split; [lia|]. split.
    - intros I W LI I0 LW. split; intros H.
      + specialize (H7 I W LI I0 H). rewrite <- H6, <- LW, firstn_all in H7. exact H7.
      + destruct (H8 I W LI I0 ltac:(lia) H) as (E & [LE HE] & _). assert (length E = 0)%nat by lia. destruct E; [|discriminate]. rewrite app_nil_r in HE. exact HE.
    - intros Hu. destruct (H9 Hu) as (I1 & W1 & W2 & _). split; [exact I1|]. rewrite <- W2, <- H6, <- W1, firstn_all. reflexivity.
  Qed.
End Circuit.

Section Keys.
  Context {K : fld} {G1 G2 GT : group K}.
  Add Field Kg3 : (fld_theory K).
  Open Scope fld_scope.
  Implicit Types (t : toxic_waste G1 G2).

  Lemma runs_agree (e : env K) (u u' : bool) (c c' : circuit K) s m d s' m' d' : same_circuit c c' -> run_circuit e u c = Some (s, m, d) -> run_circuit e u' c' = Some (s', m', d') -> m = m' /\ d = d'.
  Proof.
    intros HS H H'. unfold run_circuit in H, H'.
    destruct (synthesize (new_cs u true false) c) as [s1|] eqn:E1; [|discriminate H]. destruct (finalize (e_sort e) s1) as [s2|] eqn:E2; [|discriminate H].
    destruct (synthesize (new_cs u' true false) c') as [s1'|] eqn:E1'; [|discriminate H']. destruct (finalize (e_sort e) s1') as [s2'|] eqn:E2'; [|discriminate H'].
    pose proof (same_matrices K (e_sort e) u u' true true false c c' s1 s2 s1' s2' HS (or_intror eq_refl) (or_intror eq_refl) E1 E2 E1' E2') as EM.
    rewrite EM in H. destruct (to_matrices s2') as [[mm|]|]; try discriminate H. destruct (create_domain (e_adicity e) (e_root e) (m_con mm + m_inst mm)) as [dd|]; [|discriminate H].
    injection H as _ <- <-. injection H' as _ <- <-. split; reflexivity.
  Qed.

  Fixpoint zip3 t (inv : K) (a b c : list K) : list K :=
    match a, b, c with x :: a, y :: b, z :: c => compute_abc t inv x y z :: zip3 t inv a b c | _, _, _ => [] end.
  Lemma abc_zip t inv q : forall n off, (off + n <= length (q_a q))%nat -> (off + n <= length (q_b q))%nat -> (off + n <= length (q_c q))%nat ->
    abc_values t inv q off n = Some (zip3 t inv (firstn n (skipn off (q_a q))) (firstn n (skipn off (q_b q))) (firstn n (skipn off (q_c q)))).
  Proof.
    assert (S : forall (l : list K) i, (i < length l)%nat -> exists x, nth_error l i = Some x /\ skipn i l = x :: skipn (S i) l).
    { induction l as [|y l IH]; intros i Hi; [cbn in Hi; lia|]. destruct i as [|i]; [exists y; split; reflexivity|]. cbn [length] in Hi. destruct (IH i ltac:(lia)) as (x & H1 & H2). exists x. split; [exact H1|exact H2]. }
    induction n as [|n IH]; intros off Ha Hb Hc; [reflexivity|]. cbn [abc_values].
    destruct (S (q_a q) off ltac:(lia)) as (x & X1 & X2). destruct (S (q_b q) off ltac:(lia)) as (y & Y1 & Y2). destruct (S (q_c q) off ltac:(lia)) as (z & Z1 & Z2).
    rewrite X1, Y1, Z1, IH by lia. rewrite X2, Y2, Z2. reflexivity.
  Qed.
  Lemma zip3_inner t inv : forall z a b c, length a = length z -> length b = length z -> length c = length z ->
    inner z (zip3 t inv a b c) = (t_beta t * inner z a + t_alpha t * inner z b + inner z c) * inv.
  Proof.
    induction z as [|z0 z IH]; intros [|a0 a] [|b0 b] [|c0 c] La Lb Lc; try discriminate.
    - rewrite !(inner_nil K). ring.
    - cbn [zip3]. rewrite !(inner_cons K), IH by (cbn in *; lia). unfold compute_abc. ring.
  Qed.
  Lemma zip3_length t inv n : forall a b c, length a = n -> length b = n -> length c = n -> length (zip3 t inv a b c) = n.
  Proof. induction n as [|n IH]; intros [|a0 a] [|b0 b] [|c0 c] La Lb Lc; try discriminate; [reflexivity|]. cbn [zip3 length]. rewrite IH; [reflexivity|..]; cbn in *; lia. Qed.
  Lemma inner_app : forall u1 u2 v : list K, length v = (length u1 + length u2)%nat -> inner (u1 ++ u2) v = inner u1 (firstn (length u1) v) + inner u2 (skipn (length u1) v).
  Proof.
    induction u1 as [|x u1 IH]; intros u2 v L; cbn [app length firstn skipn]; [rewrite (inner_nil K); ring|].
    destruct v as [|y v]; [discriminate L|]. rewrite !(inner_cons K), IH by (cbn in L; lia). ring.
  Qed.

  Definition inv0 (x : K) : K := if feqb x 0 then 0 else 1 * finv x.
  (** The key of a circuit: everything is a multiple of a generator. *)
  Lemma pk_spec (e : env K) t (calls : circuit K) s m d : env_ok e -> run_circuit e true calls = Some (s, m, d) -> well_shaped m ->
    (domain_log calls <= e_adicity e)%nat -> radix2_domain (e_adicity e) (e_root e) (domain_log calls) 1 d -> (m_con m + m_inst m <= 2 ^ domain_log calls)%nat ->
    let g := generator (e_adicity e) (e_root e) (domain_log calls) in let N := (2 ^ domain_log calls)%nat in
    exists q lg hq lw, let qa := q_a q in let qb := q_b q in let qc := q_c q in instance_map (e_threads e) d m (t_x t) = Some q /\
      pk_load e t calls = Some (mk_pk (mk_vk (t_alpha t ** t_g1 t)%grp (t_beta t ** t_g2 t)%grp (t_gamma t ** t_g2 t)%grp (t_delta t ** t_g2 t)%grp (fixed_base (t_g1 t) lg))
        (t_beta t ** t_g1 t)%grp (t_delta t ** t_g1 t)%grp (fixed_base (t_g1 t) qa) (fixed_base (t_g1 t) qb) (fixed_base (t_g2 t) qb) (fixed_base (t_g1 t) hq) (fixed_base (t_g1 t) lw)) /\
      vk_load e t calls = (if feqb (t_gamma t) 0 then None else
        Some (mk_vk (t_alpha t ** t_g1 t)%grp (t_beta t ** t_g2 t)%grp (t_gamma t ** t_g2 t)%grp (t_delta t ** t_g2 t)%grp (fixed_base (t_g1 t) lg))) /\
      length qa = (m_inst m + m_wit m)%nat /\ length qb = (m_inst m + m_wit m)%nat /\ length lg = m_inst m /\ length lw = m_wit m /\ length hq = (N - 1)%nat /\
      (forall h, (length h < N)%nat -> inner h (firstn (length h) hq) = eval h (t_x t) * (t_x t ^ N - 1) * inv0 (t_delta t)) /\
      (forall I, length I = m_inst m -> inner I lg = (t_beta t * inner I (firstn (m_inst m) qa) + t_alpha t * inner I (firstn (m_inst m) qb) + inner I (firstn (m_inst m) qc)) * inv0 (t_gamma t)) /\
      (forall W, length W = m_wit m -> inner W lw = (t_beta t * inner W (skipn (m_inst m) qa) + t_alpha t * inner W (skipn (m_inst m) qb) + inner W (skipn (m_inst m) qc)) * inv0 (t_delta t)) /\
      length qc = (m_inst m + m_wit m)%nat /\
      forall z, length z = (m_inst m + m_wit m)%nat -> (exists A B C, qap_polys m z g N A B C) /\
        forall A B C, qap_polys m z g N A B C -> inner z qa = eval A (t_x t) /\ inner z qb = eval B (t_x t) /\ inner z qc = eval C (t_x t).
  Proof.
    intros (He1 & He2 & He3 & He4 & He5 & He6 & He7) ER HM Hk HR Hn g N. unfold pk_load.
    rewrite (batch_inverse_spec K 1 (e_threads e) true) by (cbn [length]; auto; lia). cbn [map]. change (inv_of K 1) with inv0.
    unfold vk_load, pre_load. rewrite ER.
    destruct (qap_instance K (e_adicity e) (e_root e) (domain_log calls) d (e_threads e) m (t_x t) He2 He3 Hk HR He1 HM Hn) as (q & Eq & Et & _ & La & Lb & Lc & Hq).
    rewrite Eq. cbn [option_map]. unfold vk_from. rewrite !abc_zip by lia. cbn [option_map].
    destruct (h_query_all K (e_adicity e) (e_root e) (domain_log calls) d (e_threads e) (q_t q) (t_x t) (inv0 (t_delta t)) He2 He3 Hk HR ltac:(lia)) as (hq & Eh & Lh & _ & Hh).
    rewrite Eh. cbn [option_map skipn]. exists q. eexists. exists hq. eexists. cbv zeta. split; [reflexivity|]. split; [reflexivity|].
    split. { unfold inv0. destruct (feqb (t_gamma t) 0) eqn:E0; [reflexivity|]. replace (1 * finv (t_gamma t)) with (finv (t_gamma t)) by ring. reflexivity. }
    split; [exact La|]. split; [exact Lb|].
    assert (F : forall l : list K, length l = (m_inst m + m_wit m)%nat -> length (firstn (m_inst m) l) = m_inst m) by (intros l L; rewrite firstn_length; lia).
    assert (S : forall l : list K, length l = (m_inst m + m_wit m)%nat -> firstn (m_wit m) (skipn (m_inst m) l) = skipn (m_inst m) l /\ length (skipn (m_inst m) l) = m_wit m).
    { intros l L. assert (LS : length (skipn (m_inst m) l) = m_wit m) by (rewrite skipn_length; lia). split; [|exact LS]. rewrite <- LS. apply firstn_all. }
    destruct (S _ La) as [Sa LSa]. destruct (S _ Lb) as [Sb LSb]. destruct (S _ Lc) as [Sc LSc].
    split; [apply zip3_length; apply F; assumption|]. split; [rewrite Sa, Sb, Sc; apply zip3_length; assumption|]. split; [exact Lh|]. split.
    { intros h Hl. rewrite Hh by exact Hl. rewrite Et. reflexivity. }
    split; [intros I LI; apply zip3_inner; rewrite F; auto|]. split; [intros W LW; rewrite Sa, Sb, Sc; apply zip3_inner; congruence|]. split; [exact Lc|]. exact Hq.
  Qed.

  Definition trim (n : nat) (h : list K) : list K := if Nat.ltb n (length h) then removelast h else h.
  Lemma calc_spec {G : group K} (g : G) (i : K) (q : list K) (v : K) (full : list K) : length q = S (length full) ->
    calculate_coeff (i ** g)%grp (fixed_base g q) (v ** g)%grp full = Some ((v + inner (1%fld :: full) q + i)%fld ** g)%grp.
  Proof.
    intros L. destruct q as [|q0 q]; [discriminate L|]. injection L as L. cbn [fixed_base map calculate_coeff]. fold (fixed_base g q). rewrite msm_fixed by exact L. cbn [option_map]. f_equal.
    rewrite <- !gmul_add_l, (inner_cons K). f_equal. ring.
  Qed.
  Lemma h_acc_spec (g : G1) hq h : (length h <= S (length hq))%nat -> exists h', h' = trim (length hq) h /\ (length h' <= length hq)%nat /\
    h_accumulate (fixed_base g hq) h = Some (inner h' (firstn (length h') hq) ** g)%grp.
  Proof.
    intros L. eexists. split; [reflexivity|]. unfold h_accumulate, trim. unfold fixed_base at 1. rewrite map_length. destruct (Nat.ltb_spec (length hq) (length h)) as [H|H].
    - assert (LR : length (removelast h) = length hq) by (rewrite removelast_firstn_len, firstn_length; lia). split; [lia|]. rewrite msm_fixed by (symmetry; exact LR). rewrite LR, firstn_all. reflexivity.
    - split; [exact H|]. unfold fixed_base. rewrite firstn_map. fold (fixed_base g (firstn (length h) hq)). apply msm_fixed. rewrite firstn_length. lia.
  Qed.
  (** The proof, in scalars. *)
  Lemma proof_spec (g1 : G1) (g2 : G2) (al be ga de r s : K) lg qa qb hq lw (h W full : list K) : length qa = S (length full) -> length qb = S (length full) -> length lw = length W ->
    (length h <= S (length hq))%nat ->
    let h' := trim (length hq) h in
    let a := al + inner (1 :: full) qa + r * de in let b := be + inner (1 :: full) qb + s * de in
    let c := s * a + r * b - s * (r * de) + inner W lw + inner h' (firstn (length h') hq) in
    (length h' <= length hq)%nat /\
    create_proof (mk_pk (mk_vk (al ** g1)%grp (be ** g2)%grp (ga ** g2)%grp (de ** g2)%grp (fixed_base g1 lg)) (be ** g1)%grp (de ** g1)%grp
        (fixed_base g1 qa) (fixed_base g1 qb) (fixed_base g2 qb) (fixed_base g1 hq) (fixed_base g1 lw)) r s h W full
    = Some (mk_proof (a ** g1)%grp (b ** g2)%grp (c ** g1)%grp).
  Proof.
    intros La Lb Lw Lh h' a b c. destruct (h_acc_spec g1 hq h Lh) as (h'' & Eh'' & Lh' & Eh). fold h' in Eh''. subst h''. split; [exact Lh'|].
    unfold create_proof. cbn [pk_l pk_h pk_delta pk_a pk_b1 pk_b2 pk_beta pk_vk vk_alpha vk_beta vk_delta]. rewrite (msm_fixed g1 lw W Lw), Eh.
    rewrite <- !gmul_mul. rewrite !calc_spec by assumption. fold a b. destruct (feqb r 0) eqn:E0.
    - apply feqb_eq in E0. rewrite <- !gmul_mul, <- !gmul_add_l. do 2 f_equal. f_equal. unfold c. rewrite E0. ring.
    - cbn [option_map]. rewrite <- !gmul_mul, gneg_scalar, <- !gmul_add_l. do 2 f_equal. f_equal. unfold c. ring.
  Qed.
  (** The equation of the verifier is the identity of the quadratic arithmetic program at x. *)
  Lemma equation (al be ga de r s Ai Aw Bi Bw Ci Cw ht : K) : ga <> 0 -> de <> 0 ->
    let A := Ai + Aw in let B := Bi + Bw in let C := Ci + Cw in
    let a := al + A + r * de in let b := be + B + s * de in
    let c := s * a + r * b - s * (r * de) + (be * Aw + al * Bw + Cw) * finv de + ht * finv de in
    a * b = al * be + (be * Ai + al * Bi + Ci) * finv ga * ga + c * de <-> A * B - C = ht.
  Proof.
    intros Hg Hd A B C a b c.
    assert (E : a * b - (al * be + (be * Ai + al * Bi + Ci) * finv ga * ga + c * de) = A * B - C - ht) by (unfold c, a, b, A, B, C; field; split; assumption).
    split; intros H; apply (proj1 (fsub_eq0 K _ _)); [rewrite <- E|rewrite E]; apply (proj2 (fsub_eq0 K _ _)); exact H.
  Qed.
End Keys.
