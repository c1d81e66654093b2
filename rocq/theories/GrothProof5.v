(** Groth16: weights that pass, for all inputs the circuit accepts. *)
From Coq Require Import ZArith Lia List Bool Arith Ring Field Field_theory.
From Verif Require Import Field PolySpec PolyProof3 FFTModel FFTSpec FFTProof FFTProof3 FFTProof4 FFTProof5 FFTExtra DomainProof DomainProof2 DomainExtra R1csModel R1csSpec QapModel QapSpec QapProof QapProof2 QapExtra GrothModel GrothSpec GrothProof GrothProof2 GrothProof4.
Import ListNotations.

Section Honest.
  Context {K : fld} {G1 G2 GT : group K}.
  Add Field Kg8 : (fld_theory K).
  Open Scope fld_scope.
  Lemma zeros_inner : forall n (v : list K), inner (repeat 0 n) v = 0.
  Proof. induction n as [|n IH]; intros [|a v]; cbn [repeat]; try reflexivity. rewrite inner_cons, IH. ring. Qed.

  Lemma honest_weights (e : env K) (calls : circuit K) (public W : list K) :
    env_ok e -> proper calls -> (constraints calls + (1 + length (instances calls)) <= 2 ^ e_adicity e)%nat ->
    length public = length (instances calls) -> length W = length (witnesses calls) -> accepts calls (1 :: public) W ->
    exists wA wB wC, sized calls wA /\ sized calls wC /\ length (w2_b wB) = (1 + length (instances calls) + length (witnesses calls))%nat /\ w_witness wC = W /\
      forall (ep : pairing G1 G2 GT) (t : toxic_waste G1 G2), t_gamma t <> 0 -> t_delta t <> 0 ->
        exists pk, pk_load e t calls = Some pk /\ verify ep (prepare ep (pk_vk pk)) (mk_proof (in_first wA pk) (in_second wB pk) (in_first wC pk)) public = Some true.
  Proof.
    intros HE HP Hfit Lp LW Hac. pose proof HE as (He1 & He2 & He3 & He4 & He5 & He6 & He7).
    destruct (run_spec e true calls HE HP Hfit) as (s & m & d & ER & HM & M1 & M2 & M3 & Hk & HR & Hn & Hacc & _).
    destruct (rdom_ok K _ _ _ _ _ He2 He3 Hk HR) as [_ HG].
    set (g := generator (e_adicity e) (e_root e) (domain_log calls)) in *. set (N := (2 ^ domain_log calls)%nat) in *.
    assert (HN : (0 < N)%nat) by (unfold N; pose proof (pow2_1 (domain_log calls)); lia).
    set (z := (1 :: public) ++ W).
    assert (Lz : length z = (m_inst m + m_wit m)%nat) by (unfold z; rewrite app_length; cbn [length]; lia).
    assert (Hrow : rows_hold m z) by (apply (Hacc (1 :: public) W); [cbn [length]; lia|reflexivity|lia|exact Hac]).
    destruct (fresh_item K (e_adicity e) (e_root e) (domain_log calls) 1 d (e_small e) (e_threads e) (e_sched e) false He2 He3 Hk HR ltac:(lia) He4) as (it & Eit & Hit).
    assert (Hz : assignment m z) by (split; [exact Lz|reflexivity]).
    assert (Hgen : e_gen e ^ (2 ^ domain_log calls) <> 1).
    { intros E. apply He6. replace (e_adicity e) with (domain_log calls + (e_adicity e - domain_log calls))%nat by lia. rewrite Nat.pow_add_r, fpow_mul, E, fpow_one. reflexivity. }
    destruct (witness_map_satisfied K (e_adicity e) (e_root e) (domain_log calls) d (e_small e) (e_threads e) (e_sched e) it (e_gen e) m z He2 He3 Hk HR Hn ltac:(lia) He4 Hit He5 Hgen HM Hz) as (h & Eh & Hsat).
    destruct (Hsat Hrow) as [Lh Hid]. fold g in Hid. fold N in Hid, Lh. set (h' := h ++ repeat 0 (N - 1 - length h)).
    assert (Lh' : length h' = (N - 1)%nat) by (unfold h'; rewrite app_length, repeat_length; lia).
    assert (Eh' : forall x, eval h' x = eval h x) by (intros x; unfold h'; rewrite eval_app, eval_repeat0; ring).
    set (n := (1 + length (instances calls) + length (witnesses calls))%nat).
    assert (Ln : length z = n) by (rewrite Lz; unfold n; lia).
    exists (mk_w1 K 1 0 0 z (repeat 0 n) (repeat 0 (N - 1)) (repeat 0 (1 + length (instances calls))) (repeat 0 (length (witnesses calls)))).
    exists (mk_w2 K 1 0 0 z).
    exists (mk_w1 K 0 0 0 (repeat 0 n) (repeat 0 n) h' (repeat 0 (1 + length (instances calls))) W).
    split; [|split; [|split; [|split]]].
    - unfold sized. cbn. rewrite !repeat_length. repeat split; auto.
    - unfold sized. cbn. rewrite !repeat_length. repeat split; auto.
    - cbn. exact Ln.
    - reflexivity.
    - intros ep t Zga Zde.
      destruct (pk_spec (G1 := G1) (G2 := G2) e t calls s m d HE ER HM Hk HR Hn) as (q & lg & hq & lw & Eq & Epk & _ & La & Lb & Llg & Llw & Lhq & Hhq & Hlg & Hlw & Lc & Hq).
      fold g in Hq. fold N in Hq, Lhq, Hhq. destruct (Hq z Lz) as [(A & B & C & HQ) Hz2]. destruct (Hz2 A B C HQ) as (EA & EB & EC). clear Hq Hz2.
      set (qa := q_a q) in *. set (qb := q_b q) in *. set (qc := q_c q) in *. set (ni := m_inst m) in *.
      assert (SP : forall l : list K, length l = (ni + m_wit m)%nat -> inner z l = inner (1 :: public) (firstn ni l) + inner W (skipn ni l)).
      { intros l Ll. unfold z. rewrite inner_app by (rewrite Ll; cbn [length]; unfold ni; lia). replace (length (1 :: public)) with ni by (cbn [length]; unfold ni; lia). reflexivity. }
      specialize (Hid A B C HQ (t_x t)). rewrite <- EA, <- EB, <- EC, (SP qa La), (SP qb Lb), (SP qc Lc) in Hid.
      assert (I0 : forall y : K, y <> 0 -> inv0 y = finv y) by (intros y Hy; unfold inv0; destruct (feqb y 0) eqn:Ey; [apply feqb_eq in Ey; contradiction|ring]).
      rewrite (I0 _ Zga) in Hlg. rewrite (I0 _ Zde) in Hlw, Hhq.
      eexists. split; [exact Epk|]. unfold in_first, in_second.
      cbn [pk_vk pk_beta pk_delta pk_a pk_b1 pk_b2 pk_h pk_l vk_alpha vk_beta vk_gamma vk_delta vk_l w_alpha w_beta w_delta w_a w_b w_h w_public w_witness w2_beta w2_gamma w2_delta w2_b].
      rewrite !weighted_fixed by (rewrite ?repeat_length; unfold ni in *; lia). rewrite <- !gmul_mul, <- !gmul_add_l. rewrite !zeros_inner.
      assert (HH : inner h' hq = eval h (t_x t) * (t_x t ^ N - 1) * finv (t_delta t)).
      { rewrite <- Eh', <- Hhq by lia. rewrite Lh', <- Lhq, firstn_all. reflexivity. }
      rewrite HH, (Hlw W) by (unfold ni in *; lia).
      match goal with |- verify ep (prepare ep ?v) ?p _ = _ => destruct (verify_scalars ep v p public lg (t_g1 t) (t_g2 t) (t_alpha t) (t_beta t) (t_gamma t) (t_delta t) _ _ _
        ltac:(intros E0; rewrite E0 in Llg; cbn in Llg; unfold ni in Llg; lia) eq_refl eq_refl ltac:(unfold ni in Llg; lia)) as [V _] end.
      apply V. clear V. rewrite (Hlg (1 :: public)) by (cbn [length]; unfold ni; lia). rewrite (SP qa La), (SP qb Lb).
      set (Ai := inner (1 :: public) (firstn ni qa)) in *. set (Bi := inner (1 :: public) (firstn ni qb)) in *. set (Ci := inner (1 :: public) (firstn ni qc)) in *.
      set (Aw := inner W (skipn ni qa)) in *. set (Bw := inner W (skipn ni qb)) in *. set (Cw := inner W (skipn ni qc)) in *.
      replace (eval h (t_x t) * (t_x t ^ N - 1)) with ((Ai + Aw) * (Bi + Bw) - (Ci + Cw)) by exact Hid. field. split; assumption.
  Qed.
End Honest.
