(** The graphs built for the custom gates, the lookups and the shuffles. *)
From Coq Require Import ZArith List Arith Bool Lia Ring Field Field_theory.
From Verif Require Import Field ExprModel ExprSpec GraphModel GraphSpec GraphProof.
Import ListNotations.
Open Scope nat_scope.

Section Build.
  Variable K : fld.
  Add Field Kf_graph2 : (fld_theory K).
  Open Scope fld_scope.

  Lemma add_calculation_new c (g : graph K) : (forall c' tg, In (c', tg) (calculations g) -> c' <> c) ->
    exists g', add_calculation c g = (SInter (num_intermediates g), g') /\ calculations g' = calculations g ++ [(c, num_intermediates g)].
  Proof.
    intros H. unfold add_calculation. destruct (find (fun info => calc_eqb (fst info) c) (calculations g)) as [[c' tg]|] eqn:E.
    - apply find_some in E as [Hin E]. cbn in E. apply calc_eqb_eq in E. destruct (H c' tg Hin E).
    - eexists. split; reflexivity.
  Qed.
  Lemma add_calculation_in c (g : graph K) s g' : add_calculation c g = (s, g') -> forall c' tg, In (c', tg) (calculations g') -> c' = c \/ In (c', tg) (calculations g).
  Proof.
    unfold add_calculation. destruct (find (fun info => calc_eqb (fst info) c) (calculations g)) as [[c1 t1]|]; intros E; injection E as <- <-; intros c' tg Hin; [right; exact Hin|].
    cbn in Hin. apply in_app_or in Hin as [Hin|[Hin|[]]]; [right; exact Hin|]. injection Hin as <- _. left. reflexivity.
  Qed.

  Variable t : table K.
  Variable n : nat.
  Hypothesis Ht : table_of t n.
  Hypothesis Hn : (Z.of_nat n <= 2 ^ 30)%Z.
  Hypothesis Hn0 : 0 < n.

  Lemma horner_forall2 (gt : source -> option K) f v ss es : Forall2 (fun s (e : expr K) => gt s = Some (value v e)) ss es ->
    forall acc, horner gt f acc ss = Some (fold_left (fun a e => a * f + value v e) es acc).
  Proof. intros H. induction H as [|s e ss es E _ IH]; intros acc; [reflexivity|]. cbn. rewrite E. apply IH. Qed.

  Theorem gates_graph polys : Forall (in_table t n) polys ->
    exists G, construct_gates polys empty_graph = Some G /\
      evaluates_to t n G (fun v theta beta gamma y prev => fold_left (fun acc e => acc * y + value v e) polys prev).
  Proof.
    intros HF. unfold construct_gates.
    assert (HA : forall idx, idx < n -> forall theta beta gamma y prev, _) by (intros idx Hi theta beta gamma y prev; exact (add_expressions_spec K t n Ht idx Hi theta beta gamma y prev polys empty_graph (wf_empty K t) HF)).
    destruct (HA 0%nat Hn0 0 0 0 0 0) as [ss [g1 [E1 [W1 [X1 [S1 [P1 [PP1 _]]]]]]]]. rewrite E1.
    destruct (add_calculation_new (CHorner SPrev ss SY) g1) as [G [EG CG]].
    { intros c' tg Hin ->. specialize (PP1 (plain_empty K)). unfold plain in PP1. rewrite Forall_forall in PP1. exact (PP1 _ Hin). }
    pose proof (fun idx (Hi : idx < n) theta beta gamma y prev => add_calculation_spec K t n idx Hi theta beta gamma y prev (CHorner SPrev ss SY) g1 W1) as HG. rewrite EG in *.
    eexists. split; [reflexivity|]. cbn [snd]. intros idx theta beta gamma y prev inters Hi HL.
    destruct (HG idx Hi theta beta gamma y prev) as [W2 [X2 [_ [_ [_ _]]]]]; [constructor; [exact I|constructor; [exact I|exact S1]]|].
    destruct (evaluate_spec K t n Ht idx Hi Hn theta beta gamma y prev G inters W2 HL) as [v [vals [Ev [HS [HLv [_ Hlast]]]]]].
    exists vals. split; [exact HLv|]. unfold inp in Ev. rewrite Ev. do 2 f_equal.
    specialize (Hlast _ _ _ CG). destruct (HA idx Hi theta beta gamma y prev) as [ss' [g1' [E1' [_ [_ [_ [_ [_ V1]]]]]]]]. rewrite E1 in E1'. injection E1' as <- <-.
    cbn [calculate get inp in_y in_previous] in Hlast. specialize (V1 G vals X2 HS).
    rewrite (horner_forall2 _ y _ ss polys V1 prev) in Hlast. congruence.
  Qed.

  Definition never (s : source) (g : graph K) : Prop := forall c tg, In (c, tg) (calculations g) -> ~ In s (calc_sources c).

  (** compress: what it adds, and that the shift challenges do not occur. *)
  Lemma compressed_spec es g : wf K t g -> Forall (in_table t n) es -> exists s g', add_compressed es g = Some (s, g') /\ wf K t g' /\ ext K g g' /\ source_ok K t g' (num_intermediates g') s /\
      (never SBeta g -> never SBeta g') /\ (never SGamma g -> never SGamma g') /\ (exists i, s = SInter i) /\
      forall idx theta beta gamma y prev G vals, idx < n -> ext K g' G -> solves K t n idx theta beta gamma y prev G vals ->
        get G (inp K t n theta beta gamma y prev) (rows K n idx G) vals s = Some (compressed (row_leaves t n idx) theta es).
  Proof.
    intros Hw HF. unfold add_compressed.
    assert (HA : forall idx, idx < n -> forall theta beta gamma y prev, _) by (intros idx Hi theta beta gamma y prev; exact (add_expressions_spec K t n Ht idx Hi theta beta gamma y prev es g Hw HF)).
    destruct (HA 0%nat Hn0 0 0 0 0 0) as [ss [g1 [E1 [W1 [X1 [S1 [P1 [_ _]]]]]]]]. rewrite E1.
    assert (Hc : Forall (source_ok K t g1 (num_intermediates g1)) (calc_sources (CHorner (SConst 0) ss STheta))).
    { constructor; [destruct W1 as [_ [[x Hx] _]]; cbn; rewrite Hx; cbn; lia|]. constructor; [exact I|exact S1]. }
    pose proof (fun idx (Hi : idx < n) theta beta gamma y prev => add_calculation_spec K t n idx Hi theta beta gamma y prev (CHorner (SConst 0) ss STheta) g1 W1 Hc) as HG.
    assert (HI : exists i, fst (add_calculation (CHorner (SConst 0) ss STheta) g1) = SInter i).
    { unfold add_calculation. destruct (find _ _) as [[? tg]|]; eexists; reflexivity. }
    destruct (add_calculation (CHorner (SConst 0) ss STheta) g1) as [s g2] eqn:Ea. cbn [fst] in HI.
    destruct (HG 0%nat Hn0 0 0 0 0 0) as [W2 [X2 [S2 [_ [_ _]]]]].
    assert (Nv : forall sp, sp = SBeta \/ sp = SGamma -> never sp g -> never sp g2).
    { intros sp Hsp Hnv c tg Hin HinS. apply (add_calculation_in _ _ _ _ Ea) in Hin as [->|Hin].
      - cbn [calc_sources] in HinS. destruct HinS as [X|[X|X]]; [destruct Hsp; subst; discriminate|destruct Hsp; subst; discriminate|].
        rewrite Forall_forall in P1. specialize (P1 _ X). destruct Hsp; subst; exact P1.
      - revert c tg Hin HinS. change (never sp g1). clear - E1 Hsp Hnv.
        (* only plain calculations are added *)
        assert (Hstep : forall e g s g', add_expression e g = Some (s, g') -> never sp g -> plain_source s /\ never sp g').
        { clear - Hsp. assert (Hadd : forall c g s g', add_calculation c g = (s, g') -> (forall s0, In s0 (calc_sources c) -> plain_source s0) -> never sp g -> plain_source s /\ never sp g').
          { intros c g s g' E Hp Hv. split; [unfold add_calculation in E; destruct (find _ _) as [[? ?]|]; injection E as <- _; exact I|].
            intros c' tg Hin HinS. apply (add_calculation_in _ _ _ _ E) in Hin as [->|Hin]; [|exact (Hv _ _ Hin HinS)]. specialize (Hp _ HinS). destruct Hsp; subst; exact Hp. }
          assert (Hconst : forall (c : K) g, plain_source (fst (add_constant c g)) /\ calculations (snd (add_constant c g)) = calculations g).
          { intros c g. unfold add_constant. destruct (find_index _ _); split; try exact I; reflexivity. }
          assert (Hrot : forall r (g : graph K), calculations (snd (add_rotation r g)) = calculations g).
          { intros r g. unfold add_rotation. destruct (find_index _ _); reflexivity. }
          assert (Hstore : forall mk rot g s g', (forall r, plain_source (mk r)) -> add_store mk rot g = (s, g') -> never sp g -> plain_source s /\ never sp g').
          { intros mk rot g s g' Hmk E Hv. unfold add_store in E. pose proof (Hrot rot g) as Hr. destruct (add_rotation rot g) as [r g1]. cbn in Hr.
            apply (Hadd _ _ _ _ E); [intros s0 [<-|[]]; apply Hmk|]. unfold never. rewrite Hr. exact Hv. }
          intros e. cut ((forall g s g', add_expression e g = Some (s, g') -> never sp g -> plain_source s /\ never sp g') /\ forall e', e = ENeg e' -> forall g s g', add_expression e' g = Some (s, g') -> never sp g -> plain_source s /\ never sp g'); [intros [H _]; exact H|].
          induction e as [c|i sm|c r|c r|c r|i|e [IH _]|l [IHl _] r [IHr IHr']|l [IHl _] r [IHr _]|e [IH _] sc]; (split; [|first [intros e' X; discriminate X | intros e' X; injection X as <-; exact IH]]); intros g s g' E Hv; cbn [add_expression] in E.
          - injection E as E. pose proof (Hconst c g) as [A B]. rewrite E in A, B. cbn in A, B. split; [exact A|]. unfold never. rewrite B. exact Hv.
          - discriminate.
          - injection E as E. eapply Hstore; [|exact E|exact Hv]; intros ?; exact I.
          - injection E as E. eapply Hstore; [|exact E|exact Hv]; intros ?; exact I.
          - injection E as E. eapply Hstore; [|exact E|exact Hv]; intros ?; exact I.
          - injection E as E. apply (Hadd _ _ _ _ E); [intros s0 [<-|[]]; exact I|exact Hv].
          - assert (Gen : match add_expression e g with None => None | Some (s, g1) => if is_const 0 s then Some (s, g1) else Some (add_calculation (CNegate s) g1) end = Some (s, g') -> plain_source s /\ never sp g').
            { destruct (add_expression e g) as [[s1 g1]|] eqn:E1; [|discriminate]. destruct (IH _ _ _ E1 Hv) as [A B]. destruct (is_const 0 s1); intros X; injection X as X; [subst; auto|].
              intros. apply (Hadd _ _ _ _ X); [intros s0 [<-|[]]; exact A|exact B]. }
            destruct e; try exact (Gen E). injection E as E. pose proof (Hconst (- c) g) as [A B]. rewrite E in A, B. cbn in A, B. split; [exact A|]. unfold never. rewrite B. exact Hv.
          - destruct (add_expression l g) as [[sl g1]|] eqn:E1; [|discriminate]. destruct (IHl _ _ _ E1 Hv) as [A B].
            assert (Gen : match add_expression r g1 with None => None | Some (sr, g2) => if is_const 0 sl then Some (sr, g2) else if is_const 0 sr then Some (sl, g2) else if source_leb sl sr then Some (add_calculation (CAdd sl sr) g2) else Some (add_calculation (CAdd sr sl) g2) end = Some (s, g') -> plain_source s /\ never sp g').
            { destruct (add_expression r g1) as [[sr g2]|] eqn:E2; [|discriminate]. destruct (IHr _ _ _ E2 B) as [C D].
              destruct (is_const 0 sl); [intros X; injection X as <- <-; auto|]. destruct (is_const 0 sr); [intros X; injection X as <- <-; auto|].
              destruct (source_leb sl sr); intros X; injection X as X; apply (Hadd _ _ _ _ X); try exact D; intros s0 [<-|[<-|[]]]; assumption. }
            destruct r; try exact (Gen E). clear Gen. destruct (add_expression r g1) as [[sr g2]|] eqn:E2; [|discriminate]. destruct (IHr' _ eq_refl _ _ _ E2 B) as [C D].
            destruct (is_const 0 sl); [injection E as X; apply (Hadd _ _ _ _ X); [intros s0 [<-|[]]; exact C|exact D]|]. destruct (is_const 0 sr); [injection E as <- <-; auto|].
            injection E as X; apply (Hadd _ _ _ _ X); [intros s0 [<-|[<-|[]]]; assumption|exact D].
          - destruct (add_expression l g) as [[sl g1]|] eqn:E1; [|discriminate]. destruct (IHl _ _ _ E1 Hv) as [A B].
            destruct (add_expression r g1) as [[sr g2]|] eqn:E2; [|discriminate]. destruct (IHr _ _ _ E2 B) as [C D].
            destruct (is_const 0 sl || is_const 0 sr); [injection E as <- <-; split; [exact I|exact D]|].
            destruct (is_const 1 sl); [injection E as <- <-; auto|]. destruct (is_const 1 sr); [injection E as <- <-; auto|].
            destruct (is_const 2 sl); [injection E as X; apply (Hadd _ _ _ _ X); [intros s0 [<-|[]]; assumption|exact D]|].
            destruct (is_const 2 sr); [injection E as X; apply (Hadd _ _ _ _ X); [intros s0 [<-|[]]; assumption|exact D]|].
            destruct (source_eqb sl sr); [injection E as X; apply (Hadd _ _ _ _ X); [intros s0 [<-|[]]; assumption|exact D]|].
            destruct (source_leb sl sr); injection E as X; apply (Hadd _ _ _ _ X); try exact D; intros s0 [<-|[<-|[]]]; assumption.
          - destruct (feqb sc 0); [injection E as <- <-; split; [exact I|exact Hv]|]. destruct (feqb sc 1); [apply (IH _ _ _ E Hv)|].
            pose proof (Hconst sc g) as [A B]. destruct (add_constant sc g) as [s1 g1]. cbn in A, B.
            destruct (add_expression e g1) as [[s2 g2]|] eqn:E2; [|discriminate]. destruct (IH _ _ _ E2) as [C D]; [unfold never; rewrite B; exact Hv|].
            injection E as X. apply (Hadd _ _ _ _ X); [intros s0 [<-|[<-|[]]]; assumption|exact D]. }
        revert g ss g1 E1 Hnv. induction es as [|e es IH]; intros g ss g1 E Hv; cbn [add_expressions] in E; [injection E as _ <-; exact Hv|].
        destruct (add_expression e g) as [[s g3]|] eqn:E1; [|discriminate]. destruct (add_expressions es g3) as [[ss' g4]|] eqn:E2; [|discriminate]. injection E as _ <-.
        apply (IH g3 ss' g4 E2). apply (Hstep _ _ _ _ E1 Hv). }
    exists s, g2. split; [reflexivity|]. split; [exact W2|]. split; [eapply ext_trans; eassumption|]. split; [exact S2|]. split; [apply Nv; auto|]. split; [apply Nv; auto|]. split; [exact HI|].
    intros idx theta beta gamma y prev G vals Hi HX HS. destruct (HG idx Hi theta beta gamma y prev) as [_ [_ [_ [_ [_ V2]]]]]. destruct (V2 G vals HX HS) as [v [-> Hcv]]. f_equal.
    destruct (HA idx Hi theta beta gamma y prev) as [ss' [g1' [E1' [_ [_ [_ [_ [_ V1]]]]]]]]. rewrite E1 in E1'. injection E1' as <- <-.
    specialize (V1 G vals (ext_trans K _ _ _ X2 HX) HS). cbn [calculate] in Hcv. cbn [get inp in_theta] in Hcv.
    assert (H0 : nth_error (constants G) 0 = Some (0 : K)). { destruct HX as [[x Hx] _]. destruct W2 as [_ [[z Hz] _]]. rewrite Hx, Hz. reflexivity. }
    rewrite H0 in Hcv. rewrite (horner_forall2 _ theta _ ss es V1 0) in Hcv. unfold compressed. congruence.
  Qed.

  Lemma never_empty s : never s empty_graph. Proof. intros c tg []. Qed.

  (** lookup/log_derivative_halo2 and shuffle: compressed expressions plus a challenge. *)
  Theorem shifted_graph es (shift : source) : shift = SBeta \/ shift = SGamma -> Forall (in_table t n) es ->
    exists G, construct_shifted es shift = Some G /\
      evaluates_to t n G (fun v theta beta gamma y prev => compressed v theta es + match shift with SBeta => beta | _ => gamma end).
  Proof.
    intros Hsh HF. unfold construct_shifted. destruct (compressed_spec es empty_graph (wf_empty K t) HF) as [s [g1 [-> [W1 [X1 [S1 [NB [NG [_ V1]]]]]]]]].
    destruct (add_calculation_new (CAdd s shift) g1) as [G [EG CG]].
    { intros c' tg Hin ->. destruct Hsh; subst shift; [apply (NB (never_empty _) _ _ Hin)|apply (NG (never_empty _) _ _ Hin)]; cbn; auto. }
    pose proof (fun idx (Hi : idx < n) theta beta gamma y prev => add_calculation_spec K t n idx Hi theta beta gamma y prev (CAdd s shift) g1 W1) as HG. rewrite EG in *.
    eexists. split; [reflexivity|]. cbn [snd]. intros idx theta beta gamma y prev inters Hi HL.
    destruct (HG idx Hi theta beta gamma y prev) as [W2 [X2 [_ [_ [_ _]]]]]; [constructor; [exact S1|constructor; [destruct Hsh; subst; exact I|constructor]]|].
    destruct (evaluate_spec K t n Ht idx Hi Hn theta beta gamma y prev G inters W2 HL) as [v [vals [Ev [HS [HLv [_ Hlast]]]]]].
    exists vals. split; [exact HLv|]. unfold inp in Ev. rewrite Ev. do 2 f_equal. specialize (Hlast _ _ _ CG). cbn [calculate] in Hlast.
    rewrite (V1 idx theta beta gamma y prev G vals Hi X2 HS) in Hlast. destruct Hsh; subst shift; cbn [get inp in_beta in_gamma] in Hlast; congruence.
  Qed.

  (** lookup/halo2: the product of both compressed sides, each shifted. *)
  Theorem lookup_graph input table_ : Forall (in_table t n) input -> Forall (in_table t n) table_ ->
    exists G, construct_lookup input table_ = Some G /\
      evaluates_to t n G (fun v theta beta gamma y prev => (compressed v theta input + beta) * (compressed v theta table_ + gamma)).
  Proof.
    intros HF1 HF2. unfold construct_lookup. destruct (compressed_spec input empty_graph (wf_empty K t) HF1) as [s1 [g1 [-> [W1 [X1 [S1 [NB1 [NG1 [_ V1]]]]]]]]].
    destruct (compressed_spec table_ g1 W1 HF2) as [s2 [g2 [-> [W2 [X2 [S2 [NB2 [NG2 [[i2 Hi2] V2]]]]]]]]].
    assert (S1' : source_ok K t g2 (num_intermediates g2) s1) by exact (source_ok_ext K t g1 g2 _ _ _ X2 (ext_num K t g1 g2 W1 W2 X2) S1).
    destruct (add_calculation_new (CAdd s1 SBeta) g2) as [g3 [E3 C3]].
    { intros c' tg Hin ->. apply (NB2 (NB1 (never_empty _)) _ _ Hin). cbn. auto. }
    pose proof (fun idx (Hi : idx < n) theta beta gamma y prev => add_calculation_spec K t n idx Hi theta beta gamma y prev (CAdd s1 SBeta) g2 W2) as HG3. rewrite E3 in *.
    assert (Ok3 : Forall (source_ok K t g2 (num_intermediates g2)) (calc_sources (CAdd s1 SBeta))) by (constructor; [exact S1'|constructor; [exact I|constructor]]).
    destruct (HG3 0%nat Hn0 0 0 0 0 0 Ok3) as [W3 [X3 [S3 [_ [_ _]]]]].
    destruct (add_calculation_new (CAdd s2 SGamma) g3) as [g4 [E4 C4]].
    { intros c' tg Hin ->. rewrite C3 in Hin. apply in_app_or in Hin as [Hin|[Hin|[]]]; [|discriminate Hin]. apply (NG2 (NG1 (never_empty _)) _ _ Hin). cbn. auto. }
    pose proof (fun idx (Hi : idx < n) theta beta gamma y prev => add_calculation_spec K t n idx Hi theta beta gamma y prev (CAdd s2 SGamma) g3 W3) as HG4. rewrite E4 in *.
    assert (Ok4 : Forall (source_ok K t g3 (num_intermediates g3)) (calc_sources (CAdd s2 SGamma))).
    { constructor; [exact (source_ok_ext K t g2 g3 _ _ _ X3 (ext_num K t g2 g3 W2 W3 X3) S2)|constructor; [exact I|constructor]]. }
    destruct (HG4 0%nat Hn0 0 0 0 0 0 Ok4) as [W4 [X4 [S4 [_ [_ _]]]]].
    set (l := SInter (num_intermediates g2)) in *. set (r := SInter (num_intermediates g3)) in *.
    destruct (add_calculation_new (CMul l r) g4) as [G [EG CG]].
    { intros c' tg Hin ->. rewrite C4 in Hin. apply in_app_or in Hin as [Hin|[Hin|[]]]; [|discriminate Hin].
      apply In_nth_error in Hin as [k Hk]. destruct W3 as [N3 [_ [_ W3]]]. destruct (W3 k _ tg Hk) as [_ HF]. cbn [calc_sources] in HF.
      apply Forall_cons_iff in HF as [_ HF]. apply Forall_cons_iff in HF as [HF _]. cbn in HF. assert (k < length (calculations g3)) by (apply nth_error_Some; congruence). lia. }
    pose proof (fun idx (Hi : idx < n) theta beta gamma y prev => add_calculation_spec K t n idx Hi theta beta gamma y prev (CMul l r) g4 W4) as HG5. rewrite EG in *.
    assert (Ok5 : Forall (source_ok K t g4 (num_intermediates g4)) (calc_sources (CMul l r))).
    { constructor; [exact (source_ok_ext K t g3 g4 _ _ _ X4 (ext_num K t g3 g4 W3 W4 X4) S3)|constructor; [exact S4|constructor]]. }
    eexists. split; [reflexivity|]. cbn [snd]. intros idx theta beta gamma y prev inters Hi HL.
    destruct (HG5 idx Hi theta beta gamma y prev Ok5) as [W5 [X5 [_ [_ [_ _]]]]].
    destruct (evaluate_spec K t n Ht idx Hi Hn theta beta gamma y prev G inters W5 HL) as [v [vals [Ev [HS [HLv [_ Hlast]]]]]].
    exists vals. split; [exact HLv|]. unfold inp in Ev. rewrite Ev. do 2 f_equal. specialize (Hlast _ _ _ CG). cbn [calculate] in Hlast.
    destruct (HG4 idx Hi theta beta gamma y prev Ok4) as [_ [_ [_ [_ [_ VR]]]]]. destruct (VR G vals X5 HS) as [vr [Hvr Cr]].
    destruct (HG3 idx Hi theta beta gamma y prev Ok3) as [_ [_ [_ [_ [_ VL]]]]]. destruct (VL G vals (ext_trans K _ _ _ X4 X5) HS) as [vl [Hvl Cl]].
    cbn [calculate] in Cr, Cl. rewrite (V2 idx theta beta gamma y prev G vals Hi (ext_trans K _ _ _ X3 (ext_trans K _ _ _ X4 X5)) HS) in Cr.
    rewrite (V1 idx theta beta gamma y prev G vals Hi (ext_trans K _ _ _ X2 (ext_trans K _ _ _ X3 (ext_trans K _ _ _ X4 X5))) HS) in Cl.
    change (get G (inp K t n theta beta gamma y prev) (rows K n idx G) vals SGamma) with (Some gamma) in Cr.
    change (get G (inp K t n theta beta gamma y prev) (rows K n idx G) vals SBeta) with (Some beta) in Cl.
    rewrite Hvl, Hvr in Hlast. congruence.
  Qed.
End Build.
