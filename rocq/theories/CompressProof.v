(** Gates keep their meaning under CompressSelectors. *)
From Coq Require Import ZArith List Arith Bool Lia Permutation Ring Field Field_theory.
From Verif Require Import Field ExprModel ExprSpec SelectorModel SelectorProof SelectorProof2 SelectorExtra CompressModel CompressSpec.
Import ListNotations.
Open Scope nat_scope.

Lemma set_at_length {A} (l : list A) i x : i < length l -> length (set_at l i x) = length l.
Proof. intros H. unfold set_at. rewrite app_length, firstn_length. cbn [length]. rewrite skipn_length. lia. Qed.
Lemma set_at_nth {A} (x : A) : forall l i j, i < length l -> nth_error (set_at l i x) j = if j =? i then Some x else nth_error l j.
Proof.
  induction l as [|y l IH]; intros i j H; [cbn in H; lia|]. destruct i; [destruct j; reflexivity|]. destruct j; [reflexivity|].
  cbn in H. unfold set_at in *. cbn [firstn skipn app nth_error Nat.eqb]. apply IH. lia.
Qed.

Lemma selector_degrees_spec {F} (polys : list (expr F)) : forall degs degs', selector_degrees polys degs = Some degs' ->
  length degs' = length degs /\
  (forall md, Forall (fun d => d <= md) degs -> Forall (fun e => degree e <= md) polys -> Forall (fun d => d <= md) degs') /\
  (forall i, nth i degs' 0 <> 0 -> nth i degs 0 <> 0 \/ exists e, In e polys /\ extract_simple e = Some (Some i)).
Proof.
  induction polys as [|e polys IH]; intros degs degs' H.
  - cbn in H. injection H as <-. auto.
  - cbn in H. destruct (extract_simple e) as [[i|]|] eqn:E; [destruct (nth_error degs i) as [d|] eqn:Ed; [|discriminate]| |discriminate].
    + assert (Hi : i < length degs) by (apply nth_error_Some; congruence). apply IH in H as [H1 [H2 H3]]. split; [rewrite H1; apply set_at_length; exact Hi|]. split.
      * intros md Hd He. apply Forall_cons_iff in He as [He1 He2]. apply H2; [|exact He2].
        apply Forall_forall. intros x Hx. apply In_nth_error in Hx as [k Hk]. rewrite set_at_nth in Hk by exact Hi. rewrite Forall_forall in Hd.
        destruct (k =? i); [injection Hk as <-; pose proof (Hd d (nth_error_In _ _ Ed)); lia|apply Hd; eapply nth_error_In; exact Hk].
      * intros k Hk. destruct (H3 k Hk) as [Hk'|[e' [He' E']]]; [|right; exists e'; split; [right; exact He'|exact E']].
        destruct (Nat.eq_dec k i) as [->|N]; [right; exists e; split; [left; reflexivity|exact E]|left].
        intros Z. apply Hk'. destruct (nth_error degs k) as [x|] eqn:Ek.
        -- rewrite (nth_error_nth degs k 0 Ek) in Z. assert (Ex : nth_error (set_at degs i (Nat.max d (degree e))) k = Some x).
           { rewrite set_at_nth by exact Hi. apply Nat.eqb_neq in N. rewrite N. exact Ek. }
           rewrite (nth_error_nth _ _ 0 Ex). exact Z.
        -- apply nth_error_None in Ek. apply nth_overflow. rewrite set_at_length by exact Hi. exact Ek.
    + apply IH in H as [H1 [H2 H3]]. split; [exact H1|]. split.
      * intros md Hd He. apply Forall_cons_iff in He as [_ He]. apply H2; assumption.
      * intros k Hk. destruct (H3 k Hk) as [?|[e' [He' E']]]; [left; assumption|right; exists e'; split; [right; exact He'|exact E']].
Qed.

Lemma extract_complex {F} (e : expr F) : complex_only e -> extract_simple e = Some None.
Proof.
  induction e; cbn; intros H; auto.
  - subst simple. reflexivity.
  - destruct H as [H1 H2]. rewrite IHe1, IHe2 by assumption. reflexivity.
  - destruct H as [H1 H2]. rewrite IHe1, IHe2 by assumption. reflexivity.
Qed.
Lemma extract_kind {F} simple num (e : expr F) i : kinds_ok simple num e -> extract_simple e = Some (Some i) -> simple i = true.
Proof.
  induction e; cbn; intros HK H; try discriminate; auto.
  - destruct HK as [Hk _]. destruct simple0; [|discriminate]. injection H as ->. auto.
  - destruct HK as [H1 H2]. destruct (extract_simple e1) as [[a|]|]; destruct (extract_simple e2) as [[b|]|]; cbn in H; try discriminate; injection H as ->; auto.
  - destruct HK as [H1 H2]. destruct (extract_simple e1) as [[a|]|]; destruct (extract_simple e2) as [[b|]|]; cbn in H; try discriminate; injection H as ->; auto.
Qed.
Lemma extract_gate {F} (e : expr F) : gate_form e -> exists o, extract_simple e = Some o.
Proof.
  intros [H|[[i [b [-> H]]]|[i [b [-> H]]]]].
  - exists None. apply extract_complex. exact H.
  - exists (Some i). cbn. rewrite (extract_complex b H). reflexivity.
  - exists (Some i). cbn. rewrite (extract_complex b H). reflexivity.
Qed.
Lemma extract_range {F} simple num (e : expr F) i : kinds_ok simple num e -> extract_simple e = Some (Some i) -> i < num.
Proof.
  induction e; cbn; intros HK H; try discriminate; auto.
  - destruct HK as [_ Hk]. destruct simple0; [|discriminate]. injection H as ->. auto.
  - destruct HK as [H1 H2]. destruct (extract_simple e1) as [[a|]|]; destruct (extract_simple e2) as [[b|]|]; cbn in H; try discriminate; injection H as ->; auto.
  - destruct HK as [H1 H2]. destruct (extract_simple e1) as [[a|]|]; destruct (extract_simple e2) as [[b|]|]; cbn in H; try discriminate; injection H as ->; auto.
Qed.
Lemma selector_degrees_some {F} simple num (polys : list (expr F)) : Forall gate_form polys -> Forall (kinds_ok simple num) polys ->
  forall degs, length degs = num -> exists degs', selector_degrees polys degs = Some degs'.
Proof.
  induction polys as [|e polys IH]; intros HG HK degs HL; [eexists; reflexivity|].
  apply Forall_cons_iff in HG as [He HG]. apply Forall_cons_iff in HK as [Hk HK]. cbn [selector_degrees].
  destruct (extract_gate e He) as [[i|] E]; rewrite E.
  - pose proof (extract_range simple num e i Hk E) as Hi. destruct (nth_error degs i) as [d|] eqn:Ed; [|apply nth_error_None in Ed; lia].
    apply IH; auto. rewrite set_at_length; lia.
  - apply IH; auto.
Qed.

Lemma compute_degree_ge {F} other (polys : list (expr F)) : Forall (fun e => degree e <= compute_degree other polys) polys.
Proof.
  apply Forall_forall. intros e He. unfold compute_degree. induction polys as [|x r IH]; [destruct He|]. cbn [map fold_right].
  destruct He as [->|He]; [apply Nat.le_max_l|]. etransitivity; [apply IH; exact He|apply Nat.le_max_r].
Qed.

Lemma fill_length {F} (asg : list (nat * nat * expr F)) : forall reps, (forall a, In a asg -> fst (fst a) < length reps) -> length (fill asg reps) = length reps.
Proof.
  induction asg as [|[[i c] e] asg IH]; intros reps H; [reflexivity|]. cbn [fill].
  pose proof (H (i, c, e) (or_introl eq_refl)) as Hi. cbn in Hi. rewrite IH; rewrite set_at_length by exact Hi; auto.
  intros a Ha. apply H. right. exact Ha.
Qed.
Lemma fill_nth {F} (asg : list (nat * nat * expr F)) : NoDup (map (fun a => fst (fst a)) asg) -> forall reps, (forall a, In a asg -> fst (fst a) < length reps) ->
  forall i, (forall c e, In (i, c, e) asg -> nth_error (fill asg reps) i = Some (Some e)) /\ (~ In i (map (fun a => fst (fst a)) asg) -> nth_error (fill asg reps) i = nth_error reps i).
Proof.
  induction asg as [|[[i c] e] asg IH]; intros ND reps H k; [split; [intros ? ? []|reflexivity]|]. cbn [map fst] in ND. inversion ND as [|? ? Hni ND']; subst.
  pose proof (H (i, c, e) (or_introl eq_refl)) as Hi. cbn in Hi. cbn [fill].
  destruct (IH ND' (set_at reps i (Some e))) with (i := k) as [A B].
  { intros a Ha. rewrite set_at_length by exact Hi. apply H. right. exact Ha. }
  split.
  - intros c' e' [E|Hin]; [|apply (A c' e' Hin)]. injection E as -> -> ->. rewrite B by exact Hni. rewrite set_at_nth, Nat.eqb_refl by exact Hi. reflexivity.
  - cbn [map fst]. intros Hn. rewrite B by (intros X; apply Hn; right; exact X). rewrite set_at_nth by exact Hi.
    destruct (Nat.eqb_spec k i) as [->|]; [exfalso; apply Hn; left; reflexivity|reflexivity].
Qed.
Lemma all_some_spec {A} (l : list (option A)) : (forall i, i < length l -> exists x, nth_error l i = Some (Some x)) ->
  exists r, all_some l = Some r /\ length r = length l /\ forall i x, nth_error l i = Some (Some x) -> nth_error r i = Some x.
Proof.
  induction l as [|o l IH]; intros H; [exists []; repeat split; intros [|i] x E; discriminate|].
  destruct (H 0 ltac:(cbn; lia)) as [x Ex]. cbn in Ex. injection Ex as ->.
  destruct IH as [r [E1 [E2 E3]]]; [intros i Hi; apply (H (S i)); cbn; lia|]. cbn [all_some]. rewrite E1. eexists. split; [reflexivity|]. split; [cbn; lia|].
  intros [|i] y E; [injection E as ->; reflexivity|]. apply E3. exact E.
Qed.

Section Replace.
  Variable K : fld.
  Add Field Kf_cmp : (fld_theory K).
  Open Scope fld_scope.

  (** Replacing selectors is substitution of their values. *)
  Theorem replace_value (reps : list (expr K)) (v : leaves K) : forall e e', replace_selectors reps e = Some e' ->
    value v e' = value {| v_fixed := v_fixed v; v_advice := v_advice v; v_instance := v_instance v; v_challenge := v_challenge v;
                          v_selector := fun i => value v (nth i reps (EConst 0)) |} e.
  Proof.
    induction e; cbn [replace_selectors]; intros e' H.
    - injection H as <-. reflexivity.
    - cbn [value v_selector]. rewrite (nth_error_nth reps index (EConst 0) H). reflexivity.
    - injection H as <-. reflexivity.
    - injection H as <-. reflexivity.
    - injection H as <-. reflexivity.
    - injection H as <-. reflexivity.
    - destruct (replace_selectors reps e) as [x|]; [|discriminate]. injection H as <-. cbn [value]. rewrite <- (IHe x eq_refl). reflexivity.
    - destruct (replace_selectors reps e1) as [x|]; [|discriminate]. destruct (replace_selectors reps e2) as [y|]; [|discriminate]. injection H as <-. cbn [value]. rewrite <- (IHe1 x eq_refl), <- (IHe2 y eq_refl). reflexivity.
    - destruct (replace_selectors reps e1) as [x|]; [|discriminate]. destruct (replace_selectors reps e2) as [y|]; [|discriminate]. injection H as <-. cbn [value]. rewrite <- (IHe1 x eq_refl), <- (IHe2 y eq_refl). reflexivity.
    - destruct (replace_selectors reps e) as [x|]; [|discriminate]. injection H as <-. cbn [value]. rewrite <- (IHe x eq_refl). reflexivity.
  Qed.

  Lemma replace_some simple (reps : list (expr K)) : forall e, kinds_ok simple (length reps) e -> exists e', replace_selectors reps e = Some e'.
  Proof.
    induction e; cbn [kinds_ok replace_selectors]; intros H; try (eexists; reflexivity).
    - destruct H as [_ H]. destruct (nth_error reps index) eqn:E; [eexists; reflexivity|]. apply nth_error_None in E. lia.
    - destruct (IHe H) as [x ->]. eexists. reflexivity.
    - destruct H as [H1 H2]. destruct (IHe1 H1) as [x ->]. destruct (IHe2 H2) as [y ->]. eexists. reflexivity.
    - destruct H as [H1 H2]. destruct (IHe1 H1) as [x ->]. destruct (IHe2 H2) as [y ->]. eexists. reflexivity.
    - destruct (IHe H) as [x ->]. eexists. reflexivity.
  Qed.

  (** Expressions whose selectors have the same values have the same value. *)
  Lemma value_selectors simple num (v : leaves K) (f g : nat -> K) e : kinds_ok simple num e -> complex_only e ->
    (forall i, i < num -> simple i = false -> f i = g i) ->
    value {| v_fixed := v_fixed v; v_advice := v_advice v; v_instance := v_instance v; v_challenge := v_challenge v; v_selector := f |} e =
    value {| v_fixed := v_fixed v; v_advice := v_advice v; v_instance := v_instance v; v_challenge := v_challenge v; v_selector := g |} e.
  Proof.
    intros HK HC H. induction e; cbn [value v_fixed v_advice v_instance v_challenge v_selector kinds_ok complex_only] in *; auto.
    - destruct HK as [Hk Hi]. apply H; [exact Hi|congruence].
    - rewrite IHe by assumption. reflexivity.
    - rewrite IHe1, IHe2 by tauto. reflexivity.
    - rewrite IHe1, IHe2 by tauto. reflexivity.
    - rewrite IHe by assumption. reflexivity.
  Qed.

  Theorem compress_gates (simple : nat -> bool) (num_fixed other n : nat) (selectors : list (list bool)) (polys : list (expr K)) :
    Forall (fun a => length a = n) selectors ->
    (forall k, 0 < k <= length selectors -> (fnat k : K) <> 0) ->
    Forall (kinds_ok simple (length selectors)) polys -> Forall gate_form polys ->
    exists cols polys', compress_selectors num_fixed (length selectors) other selectors polys = Some (cols, polys') /\
      Forall (fun c => length c = n) cols /\ length polys' = length polys /\
      forall row (v : leaves K), row < n -> holds_columns v num_fixed cols row ->
        forall i e e', nth_error polys i = Some e -> nth_error polys' i = Some e' ->
          (value v e' = 0 <-> value (with_selectors v selectors row) e = 0) /\
          (complex_only e -> value v e' = value (with_selectors v selectors row) e).
  Proof.
    intros HF Hchar HK HG. unfold compress_selectors. rewrite Nat.eqb_refl. cbn [negb].
    destruct (selector_degrees_some simple (length selectors) polys HG HK (repeat 0%nat (length selectors)) (repeat_length _ _)) as [degs Ed]. rewrite Ed.
    destruct (selector_degrees_spec polys _ _ Ed) as [Ld [Hmax Hpos]]. rewrite repeat_length in Ld.
    set (q := fun k => EFixed (num_fixed + k) 0%Z : expr K).
    destruct (compression_total K q selectors degs (compute_degree other polys) n HF) as [[[cols asg] calls] Ep]; [lia| |].
    { apply Hmax; [|apply compute_degree_ge]. apply Forall_forall. intros x Hx. apply repeat_spec in Hx. lia. }
    rewrite Ep. destruct (compression_selects K q selectors degs _ n cols asg calls HF ltac:(lia) Hchar Ep) as [_ [HFc [Pm Hsel]]].
    assert (Lasg : length asg = length selectors) by (apply Permutation_length in Pm; rewrite map_length, seq_length in Pm; exact Pm).
    assert (ND : NoDup (map (fun a => fst (fst a)) asg)) by (eapply Permutation_NoDup; [apply Permutation_sym; exact Pm|apply seq_NoDup]).
    assert (Hin : forall i, i < length selectors -> exists c e, In (i, c, e) asg).
    { intros i Hi. assert (H : In i (map (fun a => fst (fst a)) asg)) by (eapply Permutation_in; [apply Permutation_sym; exact Pm|apply in_seq; lia]).
      apply in_map_iff in H as [[[i' c] e] [E H]]. cbn in E. subst i'. exists c, e. exact H. }
    assert (Hlt : forall a, In a asg -> fst (fst a) < length (repeat (@None (expr K)) (length asg))).
    { intros a Ha. rewrite repeat_length, Lasg. assert (H : In (fst (fst a)) (map (fun a => fst (fst a)) asg)) by (exact (in_map (fun a : nat * nat * expr K => fst (fst a)) asg a Ha)).
      eapply Permutation_in in H; [|exact Pm]. apply in_seq in H. lia. }
    destruct (all_some_spec (fill asg (repeat None (length asg)))) as [reps [Er [Lr Hr]]].
    { intros i Hi. rewrite fill_length in Hi by exact Hlt. rewrite repeat_length, Lasg in Hi. destruct (Hin i Hi) as [c [e He]]. exists e. apply (fill_nth asg ND _ Hlt i) with (c := c). exact He. }
    rewrite Er. rewrite fill_length in Lr by exact Hlt. rewrite repeat_length, Lasg in Lr.
    assert (Hrep : forall i c e, In (i, c, e) asg -> nth_error reps i = Some e).
    { intros i c e He. apply Hr. apply (fill_nth asg ND _ Hlt i) with (c := c). exact He. }
    assert (HM : exists polys', map_all (replace_selectors reps) polys = Some polys' /\ length polys' = length polys /\
        forall i e e', nth_error polys i = Some e -> nth_error polys' i = Some e' -> replace_selectors reps e = Some e').
    { rewrite <- Lr in HK. clear -HK. induction polys as [|e r IH].
      - exists []. repeat split; intros [|i] e e' E; discriminate.
      - apply Forall_cons_iff in HK as [Hk HK]. destruct (replace_some simple reps e Hk) as [x Ex]. destruct (IH HK) as [p [E1 [E2 E3]]].
        cbn [map_all]. rewrite Ex, E1. eexists. split; [reflexivity|]. split; [cbn; lia|]. intros [|i] a b Ha Hb.
        + injection Ha as <-. injection Hb as <-. exact Ex.
        + apply (E3 i a b Ha Hb). }
    destruct HM as [polys' [-> [Lp Hp]]]. exists cols, polys'. split; [reflexivity|]. split; [exact HFc|]. split; [exact Lp|].
    intros row v Hrow Hcols i e e' He He'. specialize (Hp i e e' He He'). rewrite (replace_value reps v e e' Hp).
    assert (HKe : kinds_ok simple (length selectors) e) by (rewrite Forall_forall in HK; apply HK; eapply nth_error_In; exact He).
    assert (HGe : gate_form e) by (rewrite Forall_forall in HG; apply HG; eapply nth_error_In; exact He).
    (* the replacement of selector j *)
    assert (HV : forall j, j < length selectors -> (value v (nth j reps (EConst 0)) <> 0 <-> nth row (nth j selectors []) false = true) /\
                 (simple j = false -> value v (nth j reps (EConst 0)) = if nth row (nth j selectors []) false then 1 else 0)).
    { intros j Hj. destruct (Hin j Hj) as [c [x Hx]]. destruct (Hsel j c x Hx) as [Hc Hvx]. rewrite (nth_error_nth reps j (EConst 0) (Hrep j c x Hx)).
      destruct (Hvx row v Hrow) as [A B]; [unfold q; cbn [value]; apply Hcols; exact Hc|]. split; [exact A|]. intros Hs. apply B.
      destruct (Nat.eq_dec (nth j degs 0%nat) 0) as [|N]; [assumption|exfalso]. destruct (Hpos j N) as [N'|[g [Hg Eg]]].
      - apply N'. apply nth_repeat.
      - rewrite Forall_forall in HK. pose proof (extract_kind simple _ g j (HK g Hg) Eg). congruence. }
    assert (HCx : forall b, kinds_ok simple (length selectors) b -> complex_only b ->
       value {| v_fixed := v_fixed v; v_advice := v_advice v; v_instance := v_instance v; v_challenge := v_challenge v; v_selector := fun i => value v (nth i reps (EConst 0)) |} b
       = value (with_selectors v selectors row) b).
    { intros b Hkb Hcb. apply (value_selectors simple (length selectors)); auto. intros j Hj Hs. apply HV; assumption. }
    split; [|intros Hc; apply HCx; assumption].
    assert (HS : forall j x y, j < length selectors -> x = value v (nth j reps (EConst 0)) ->
       (y = if nth row (nth j selectors []) false then 1 else 0) -> forall b : K, (x * b = 0 <-> y * b = 0)).
    { intros j x y Hj -> -> b. destruct (HV j Hj) as [A _]. destruct (nth row (nth j selectors []) false).
      - assert (Hne : value v (nth j reps (EConst 0)) <> 0) by (apply A; reflexivity). split; intros H.
        + apply fmul_integral in H as [H|H]; [contradiction|]. rewrite H. ring.
        + assert (b = 0) by (rewrite <- H; ring). subst b. ring.
      - assert (Hz : value v (nth j reps (EConst 0)) = 0) by (destruct (f_dec K (value v (nth j reps (EConst 0))) 0) as [Z|Z]; [exact Z|apply A in Z; discriminate]).
        rewrite Hz. tauto. }
    destruct HGe as [Hc|[[j [b [-> Hc]]]|[j [b [-> Hc]]]]].
    - rewrite HCx by assumption. tauto.
    - cbn [kinds_ok] in HKe. destruct HKe as [[_ Hj] Hkb]. cbn [value]. rewrite (HCx b Hkb Hc). cbn [v_selector with_selectors]. apply (HS j _ _ Hj eq_refl eq_refl).
    - cbn [kinds_ok] in HKe. destruct HKe as [Hkb [_ Hj]]. cbn [value]. rewrite (HCx b Hkb Hc). cbn [v_selector with_selectors].
      match goal with |- (?a * ?b = 0 <-> _ * ?c = 0) => replace (a * b) with (b * a) by ring; replace (value (with_selectors v selectors row) (ESelector j true)) with (if nth row (nth j selectors []) false then 1 else 0 : K) by reflexivity end.
      etransitivity; [apply (HS j _ _ Hj eq_refl eq_refl)|]. rewrite (Rmul_comm (F_R (fld_theory K))). tauto.
  Qed.
End Replace.
