(** The result of the V1 floor planner; it does not depend on the order of the columns. *)
From Coq Require Import ZArith Lia List Bool Sorted Permutation.
From Verif Require Import BigIntModel BufferModel LayoutModel LayoutSpec LayoutProof LayoutProof2 LayoutProof3 LayoutProof4 LayoutProof5 LayoutProof6.
Import ListNotations.
Open Scope Z_scope.

Section V1.
  Context {V : Type}.

  Lemma constants_cells (prog : list (list (call V))) n : n = length prog -> Forall (fun calls => Forall (call_ok prog n) calls) prog ->
    forall v x, In (v, x) (all_constants 0 prog) -> cell_ok prog n x.
  Proof.
    intros -> Hok. assert (G : forall post pre, prog = pre ++ post -> forall v x, In (v, x) (all_constants (length pre) post) -> cell_ok prog (length prog) x).
    { induction post as [|calls post IH]; intros pre E v x H; [destruct H|]. cbn [all_constants] in H. apply in_app_or in H. destruct H as [H|H].
      - assert (Hn : nth_error prog (length pre) = Some calls) by (rewrite E, nth_error_app2, Nat.sub_diag by lia; reflexivity).
        rewrite Forall_forall in Hok. pose proof (Hok calls (nth_error_In _ _ Hn)) as Hc. rewrite Forall_forall in Hc.
        unfold constants_of in H. apply in_flat_map in H. destruct H as [k [Hk Hx]]. specialize (Hc k Hk).
        destruct k; simpl in Hx; try (destruct Hx; fail); destruct Hx as [Hx|[]]; injection Hx as <- <-.
        + split; [rewrite E, app_length; simpl; lia|]. exists calls. simpl. split; [exact Hn|]. split; [exact Hc|].
          eapply rows_needed_in; [exact Hk | reflexivity].
        + exact Hc.
      - apply (IH (pre ++ [calls]) ltac:(now rewrite <- app_assoc) v x). rewrite app_length. cbn [length]. now rewrite Nat.add_1_r. }
    exact (G prog [] eq_refl).
  Qed.

  Section Run.
    Variables (sort1 : list shape -> list shape) (sort2 : list (Z * shape) -> list (Z * shape)).
    Hypothesis H1 : sorts_by advice_area sort1.
    Hypothesis H2 : sorts_by (fun q => Z.of_nat (sh_index (snd q))) sort2.
    Variables (constants : list nat) (prog : list (list (call V))).
    Hypothesis Hnd : NoDup constants.
    Hypothesis Hok : Forall (fun calls => Forall (call_ok prog (length prog)) calls) prog.
    Hypothesis Htot : total_needed prog < 2 ^ 31.

    Lemma v1_spec arrange : (forall i l, Permutation (arrange i l) l) ->
      exists starts, (exists ca, slot_in_biggest_advice_first arrange sort1 sort2 (measure_all prog) = Some (starts, ca)) /\
      length starts = length prog /\ disjoint prog starts /\
      match v1_synthesize arrange sort1 sort2 constants prog with
      | Some (regions, events) => regions = starts /\ regions_kept prog starts events /\ constants_kept constants prog starts events /\
          copies_kept prog starts events /\ nothing_else constants prog starts events
      | None => exists free, free_cells constants prog starts free /\ (length free < count_constants 0 prog)%nat
      end.
    Proof.
      intro Har. destruct (plan_spec arrange sort1 sort2 Har H1 H2 prog Hok Htot) as [order [ca [E [G [S [P [T [El [Hs [Hd [Hcov Hused]]]]]]]]]]].
      set (starts := map fst (sort2 order)) in *. exists starts. split; [exists ca; exact E|]. split; [exact El|]. split; [exact Hd|].
      destruct (positions_spec ca (total_needed prog) constants) as [Pn Pi]; [intro c; apply (proj2 T c) | lia | exact Hnd|].
      assert (Hfree : free_cells constants prog starts (constant_positions ca constants)).
      { split; [exact Pn|]. intros cc r. rewrite Pi. rewrite Hcov. split.
        - intros [A [B C]]. split; [exact A|]. split; [lia|]. split; [apply Hused; lia | exact C].
        - intros [A [B [C D]]]. split; [exact A|]. split; [|exact D]. split; [exact B | now apply Hused]. }
      destruct (assignment_pass_spec prog starts Hs Hd Hok prog [] eq_refl) as [ev [A1 [A2 [A3 A4]]]]. cbn [length] in A1.
      unfold v1_synthesize. rewrite E, A1. rewrite all_constants_length.
      destruct (length (constant_positions ca constants) <? count_constants 0 prog)%nat eqn:El2.
      - apply Nat.ltb_lt in El2. exists (constant_positions ca constants). auto.
      - apply Nat.ltb_ge in El2.
        destruct (place_constants_spec prog starts (length prog) Hs (all_constants 0 prog) (constant_positions ca constants)) as [e [B1 [B2 B3]]];
          [rewrite all_constants_length; exact El2 | exact Pn | now apply constants_cells|].
        rewrite B1. cbn [option_map]. split; [reflexivity|]. split; [|split; [|split]].
        + intros i calls c o v Hc Hh. destruct (nth_error starts i) as [s|] eqn:Es.
          2:{ apply nth_error_None in Es. assert (i < length prog)%nat by (apply nth_error_Some; congruence). lia. }
          exists (s + o). split; [exists s; auto|]. rewrite holds_app. rewrite (A3 i calls s c o v ltac:(simpl; lia) Hc Es Hh).
          destruct (holds event_write e c (s + o)) eqn:Ee; [|reflexivity]. exfalso. destruct (B2 _ _ _ Ee) as [cc [-> Hi]]. apply Pi in Hi. destruct Hi as [_ [_ Hb]].
          apply Hb. apply Hcov. exists i, calls, s. destruct (region_ok prog Hok Htot i calls Hc) as [O _]. destruct (holds_covered _ _ _ _ O Hh) as [C R].
          split; [exact Hc|]. split; [exact Es|]. split; [exact C | lia].
        + intros i calls k v x Hc Hk Hx. destruct (B3 v x) as [cc [r [row [I1 [I2 [I3 I4]]]]]]; [eapply (all_constants_in prog 0); eassumption|].
          exists cc, r, row. apply Pi in I1. split; [apply I1|]. split; [rewrite holds_app; now rewrite I2|]. split; [exact I3 | apply in_or_app; now right].
        + intros i calls Hc. destruct (A4 i calls ltac:(simpl; lia) Hc) as [C1 C2]. split.
          * intros l r X. destruct (C1 _ _ X) as [a [b [Ha [Hb Hi]]]]. exists a, b. split; [exact Ha|]. split; [exact Hb | apply in_or_app; now left].
          * intros inst row c o v X. destruct (C2 _ _ _ _ _ X) as [a [Ha Hi]]. exists a. split; [exact Ha | apply in_or_app; now left].
        + intros c r v. rewrite holds_app. destruct (holds event_write e c r) eqn:Ee.
          * intros _. right. destruct (B2 _ _ _ Ee) as [cc [-> Hi]]. apply Pi in Hi. exists cc. split; [reflexivity|]. split; [apply Hi|]. rewrite <- Hcov. apply Hi.
          * intro X. left. destruct (A2 _ _ _ X) as [i [calls [s [_ [C1 [C2 C3]]]]]]. exists i, calls, s. auto.
    Qed.

    Lemma plan_deterministic arr1 arr2 : (forall i l, Permutation (arr1 i l) l) -> (forall i l, Permutation (arr2 i l) l) ->
      v1_synthesize arr1 sort1 sort2 constants prog = v1_synthesize arr2 sort1 sort2 constants prog.
    Proof.
      intros Ha Hb.
      pose proof (shapes_index prog Hok Htot) as SI. pose proof (shapes_proper prog Hok Htot) as SP. pose proof (shapes_total prog Hok Htot) as ST.
      assert (Htot' : total_rows (measure_all prog) < 2 ^ 31) by (rewrite ST; exact Htot).
      destruct (biggest_spec arr1 sort1 sort2 Ha H1 H2 (measure_all prog) SI SP Htot') as [o1 [c1 [E1 [G1 [_ [T1 [F1 _]]]]]]].
      destruct (biggest_spec arr2 sort1 sort2 Hb H1 H2 (measure_all prog) SI SP Htot') as [o2 [c2 [E2 [G2 [_ [T2 [F2 _]]]]]]].
      assert (Eo : o1 = o2).
      { apply greedy_unique; [exact G1 | exact G2|].
        assert (Hm : forall arr, (forall i l, Permutation (arr i l) l) -> forall o c, slot_in arr [] (rev (sort1 (measure_all prog))) = Some (o, c) -> map snd o = rev (sort1 (measure_all prog))).
        { intros arr Harr o c Eo. assert (Pr : Permutation (rev (sort1 (measure_all prog))) (measure_all prog)).
          { transitivity (sort1 (measure_all prog)); [apply Permutation_sym, Permutation_rev | apply H1]. }
          destruct (slot_in_greedy arr (rev (sort1 (measure_all prog))) Harr) as [l [c' [X [Y _]]]].
          - rewrite Forall_forall in *. intros x Hx. apply SP. eapply Permutation_in; eassumption.
          - rewrite (total_rows_perm _ _ Pr). exact Htot'.
          - rewrite Eo in X. injection X as -> _. exact Y. }
        rewrite (Hm arr1 Ha o1 c1 E1), (Hm arr2 Hb o2 c2 E2). reflexivity. }
      subst o2. unfold v1_synthesize. rewrite F1, F2.
      destruct (tracks_same c1 c2 o1 _ _ T1 T2) as [Ea Ef].
      assert (Ep : constant_positions c1 constants = constant_positions c2 constants).
      { unfold constant_positions. apply flat_map_ext. intro c. now rewrite Ea, Ef. }
      now rewrite Ep.
    Qed.
  End Run.
End V1.
