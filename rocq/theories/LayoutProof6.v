(** The V1 floor planner. *)
From Coq Require Import ZArith Lia List Bool Sorted Permutation.
From Verif Require Import BigIntModel BufferModel LayoutModel LayoutSpec LayoutProof LayoutProof2 LayoutProof3 LayoutProof4 LayoutProof5.
Import ListNotations.
Open Scope Z_scope.

Section V1.
  Context {V : Type}.
  Implicit Types (calls : list (call V)) (prog : list (list (call V))).

  Fixpoint all_constants (i : nat) prog : list (V * cell) :=
    match prog with [] => [] | calls :: r => constants_of i calls ++ all_constants (S i) r end.
  Lemma all_constants_length prog : forall i, length (all_constants i prog) = count_constants i prog.
  Proof. induction prog; intro i; simpl; [reflexivity|]. now rewrite app_length, IHprog. Qed.
  Lemma all_constants_in prog : forall b i calls k v x, nth_error prog i = Some calls -> In k calls -> In (v, x) (call_constants (b + i) k) ->
    In (v, x) (all_constants b prog).
  Proof.
    induction prog as [|c0 prog IH]; intros b i calls k v x Hn Hk Hx; destruct i as [|i]; simpl in *; try discriminate; apply in_or_app.
    - injection Hn as ->. left. apply in_flat_map. exists k. rewrite Nat.add_0_r in Hx. auto.
    - right. apply (IH (S b) i calls k); auto. now replace (S b + i)%nat with (b + S i)%nat by lia.
  Qed.

  Lemma call_ok_offsets prog n calls : Forall (call_ok prog n) calls -> offsets_ok calls.
  Proof.
    intros H k c o v Hk E. rewrite Forall_forall in H. specialize (H k Hk). destruct k; simpl in *; try discriminate; injection E as _ <- _; exact H.
  Qed.
  Lemma columns_pos calls c : offsets_ok calls -> (exists k o v, In k calls /\ call_write k = Some (c, o, v)) -> 0 < rows_needed calls.
  Proof. intros Ho [k [o [v [Hk E]]]]. pose proof (rows_needed_in calls k c o v Hk E). pose proof (Ho k c o v Hk E). lia. Qed.
  Lemma holds_covered calls c o v : offsets_ok calls -> holds call_write calls c o = Some v ->
    (exists k o v, In k calls /\ call_write k = Some (c, o, v)) /\ 0 <= o < rows_needed calls.
  Proof.
    intros Ho H. apply holds_in in H. destruct H as [k [Hk E]]. split; [exists k, o, v; auto|].
    split; [exact (Ho k c o v Hk E) | exact (rows_needed_in calls k c o v Hk E)].
  Qed.

  Lemma assignment_pass_spec prog regions : starts_ok prog regions (length prog) -> disjoint prog regions ->
    Forall (fun calls => Forall (call_ok prog (length prog)) calls) prog ->
    forall post pre, prog = pre ++ post ->
    exists ev, assignment_pass regions (length pre) post = Some (ev, all_constants (length pre) post) /\
      (forall c r v, holds event_write ev c r = Some v -> exists i calls s, (length pre <= i)%nat /\ nth_error prog i = Some calls /\ nth_error regions i = Some s /\
         holds call_write calls c (r - s) = Some v) /\
      (forall i calls s c o v, (length pre <= i)%nat -> nth_error prog i = Some calls -> nth_error regions i = Some s -> holds call_write calls c o = Some v ->
         holds event_write ev c (s + o) = Some v) /\
      (forall i calls, (length pre <= i)%nat -> nth_error prog i = Some calls ->
        (forall l r, In (ConstrainEqual l r) calls -> exists a b, at_row regions (cl_region l) (cl_offset l) a /\ at_row regions (cl_region r) (cl_offset r) b /\
           In (EvCopy (cl_column l) a (cl_column r) b) ev) /\
        (forall inst row c o v, In (AssignAdviceFromInstance inst row c o v) calls -> exists a, at_row regions i o a /\ In (EvCopy (Advice c) a (Instance inst) row) ev)).
  Proof.
    intros Hs Hd Hok. induction post as [|calls post IH]; intros pre E; cbn [assignment_pass all_constants].
    - exists []. split; [reflexivity|]. split; [discriminate|].
      assert (Hno : forall i, (length pre <= i)%nat -> nth_error prog i = None) by (intros i Hi; apply nth_error_None; rewrite E, app_nil_r; exact Hi).
      split; [intros i calls s c o v Hi Hc; rewrite Hno in Hc by exact Hi; discriminate|].
      intros i calls Hi Hc. rewrite Hno in Hc by exact Hi. discriminate.
    - destruct (IH (pre ++ [calls])) as [ev2 [P1 [P2 [P3 P4]]]]; [now rewrite <- app_assoc|].
      rewrite app_length in P1, P2, P3, P4. cbn [length] in P1, P2, P3, P4. rewrite Nat.add_1_r in P1, P2, P3, P4.
      assert (Hn : nth_error prog (length pre) = Some calls) by (rewrite E, nth_error_app2, Nat.sub_diag by lia; reflexivity).
      assert (Hlt : (length pre < length prog)%nat) by (rewrite E, app_length; simpl; lia).
      destruct (Hs _ _ Hlt Hn) as [s [Hrs [Hs0 Hs1]]].
      assert (Hokc : Forall (call_ok prog (length prog)) calls).
      { rewrite Forall_forall in Hok. apply Hok. eapply nth_error_In; exact Hn. }
      destruct (plan_region_spec prog regions (length prog) (length pre) calls s Hs Hlt Hn Hrs Hokc) as [ev1 [Q1 [Q2 [Q3 Q4]]]].
      rewrite Q1, P1. exists (ev1 ++ ev2). split; [reflexivity|]. split; [|split].
      + intros c r v. rewrite holds_app. destruct (holds event_write ev2 c r) eqn:E2.
        * intro X. injection X as ->. destruct (P2 _ _ _ E2) as [i [cs [s' [Hi R]]]]. exists i, cs, s'. split; [lia | exact R].
        * rewrite Q2. intro X. exists (length pre), calls, s. auto.
      + intros i cs s' c o v Hi Hc Hr Hh. rewrite holds_app. destruct (Nat.eq_dec i (length pre)) as [->|Hne].
        * rewrite Hn in Hc. injection Hc as <-. rewrite Hrs in Hr. injection Hr as <-.
          destruct (holds event_write ev2 c (s + o)) eqn:E2; [|rewrite Q2; now replace (s + o - s) with o by lia].
          exfalso. destruct (P2 _ _ _ E2) as [j [cs' [sj [Hj [Hcj [Hrj Hhj]]]]]].
          assert (Hokj : Forall (call_ok prog (length prog)) cs') by (rewrite Forall_forall in Hok; apply Hok; eapply nth_error_In; exact Hcj).
          destruct (holds_covered _ _ _ _ (call_ok_offsets _ _ _ Hokc) Hh) as [C1 R1]. destruct (holds_covered _ _ _ _ (call_ok_offsets _ _ _ Hokj) Hhj) as [C2 R2].
          apply (Hd (length pre) j calls cs' s sj c (s + o)); auto; lia.
        * rewrite (P3 i cs s' c o v); auto; lia.
      + intros i cs Hi Hc. destruct (Nat.eq_dec i (length pre)) as [->|Hne].
        * rewrite Hn in Hc. injection Hc as <-. split.
          -- intros l r X. destruct (Q3 _ _ X) as [a [b [A [B C]]]]. exists a, b. split; [exact A|]. split; [exact B|]. apply in_or_app. now left.
          -- intros inst row c o v X. destruct (Q4 _ _ _ _ _ X) as [a [A C]]. exists a. split; [exact A|]. apply in_or_app. now left.
        * destruct (P4 i cs ltac:(lia) Hc) as [A1 A2]. split.
          -- intros l r X. destruct (A1 _ _ X) as [a [b [A [B C]]]]. exists a, b. split; [exact A|]. split; [exact B|]. apply in_or_app. now right.
          -- intros inst row c o v X. destruct (A2 _ _ _ _ _ X) as [a [A C]]. exists a. split; [exact A|]. apply in_or_app. now right.
  Qed.

  Lemma place_constants_spec prog regions n : starts_ok prog regions n -> forall (cs : list (V * cell)) ps, (length cs <= length ps)%nat -> NoDup ps ->
    (forall v x, In (v, x) cs -> cell_ok prog n x) ->
    exists e : list (event V), place_constants regions ps cs = Some e /\
      (forall c r v, holds event_write e c r = Some v -> exists cc, c = Fixed cc /\ In (cc, r) ps) /\
      (forall v x, In (v, x) cs -> exists cc r row, In (cc, r) ps /\ holds event_write e (Fixed cc) r = Some (Some v) /\
         at_row regions (cl_region x) (cl_offset x) row /\ In (EvCopy (Fixed cc) r (cl_column x) row) e).
  Proof.
    intro Hs. induction cs as [|[v x] cs IH]; intros ps Hl Hn Hc.
    - exists []. split; [destruct ps as [|[? ?] ?]; reflexivity|]. split; [discriminate | intros v x []].
    - destruct ps as [|[cc r] ps]; [simpl in Hl; lia|]. cbn [place_constants]. inversion Hn as [|? ? Hni Hn']; subst.
      destruct (IH ps) as [e [P1 [P2 P3]]]; [simpl in Hl; lia | exact Hn' | intros v' x' Hi; apply (Hc v' x'); now right|].
      destruct (row_of_cell prog regions n x Hs (Hc v x (or_introl eq_refl))) as [row [Er Ar]]. rewrite Er, P1.
      assert (Hfree : holds event_write e (Fixed cc) r = None).
      { destruct (holds event_write e (Fixed cc) r) eqn:E; [|reflexivity]. exfalso. apply P2 in E. destruct E as [cc' [X Hi]]. injection X as <-. contradiction. }
      eexists. split; [reflexivity|]. split.
      + intros c r' v'. cbn [holds event_write]. destruct (holds event_write e c r') eqn:E.
        * intros _. destruct (P2 _ _ _ E) as [cc' [X Hi]]. exists cc'. split; [exact X | now right].
        * destruct (column_eqb (Fixed cc) c && (r =? r')) eqn:E2; [|discriminate]. intros _. apply andb_prop in E2. destruct E2 as [E2 E3].
          apply column_eqb_eq in E2. apply Z.eqb_eq in E3. subst. exists cc. split; [reflexivity | now left].
      + intros v' x' [X|X].
        * injection X as <- <-. exists cc, r, row. split; [now left|]. split; [cbn [holds event_write]; rewrite Hfree; now rewrite column_eqb_refl, Z.eqb_refl|].
          split; [exact Ar | right; now left].
        * destruct (P3 v' x' X) as [cc' [r' [row' [A [B [C D]]]]]]. exists cc', r', row'. split; [now right|]. split; [cbn [holds]; now rewrite B|].
          split; [exact C | right; now right].
  Qed.

  Lemma measure_all_from prog : forall b, map (fun x => measure (fst x) (snd x)) (combine (seq b (length prog)) prog) =
    map (fun x => measure (fst x) (snd x)) (combine (seq b (length prog)) prog) /\
    forall i, nth_error (map (fun x => measure (fst x) (snd x)) (combine (seq b (length prog)) prog)) i = option_map (measure (b + i)) (nth_error prog i).
  Proof.
    induction prog as [|calls prog IH]; intro b; (split; [reflexivity|]); intros [|i]; simpl; try reflexivity.
    - now rewrite Nat.add_0_r.
    - rewrite (proj2 (IH (S b)) i). now replace (S b + i)%nat with (b + S i)%nat by lia.
  Qed.
  Lemma measure_all_nth prog i : nth_error (measure_all prog) i = option_map (measure i) (nth_error prog i).
  Proof. exact (proj2 (measure_all_from prog 0) i). Qed.
  Lemma measure_all_length prog : length (measure_all prog) = length prog.
  Proof. unfold measure_all. rewrite map_length, combine_length, seq_length. lia. Qed.

  Lemma total_needed_in prog calls : In calls prog -> rows_needed calls <= total_needed prog.
  Proof.
    induction prog as [|x prog IH]; intros H; [destruct H|]. simpl. fold (total_needed prog). destruct H as [<-|H].
    - assert (0 <= total_needed prog) by (clear; induction prog; simpl; [lia|]; fold (total_needed prog); pose proof (rows_needed_nonneg a); lia). lia.
    - specialize (IH H). pose proof (rows_needed_nonneg x). lia.
  Qed.

  Section Run.
    Variables (arrange : nat -> list column -> list column) (sort1 : list shape -> list shape) (sort2 : list (Z * shape) -> list (Z * shape)).
    Hypothesis Har : forall i l, Permutation (arrange i l) l.
    Hypothesis H1 : sorts_by advice_area sort1.
    Hypothesis H2 : sorts_by (fun q => Z.of_nat (sh_index (snd q))) sort2.
    Variables (constants : list nat) (prog : list (list (call V))).
    Hypothesis Hnd : NoDup constants.
    Hypothesis Hok : Forall (fun calls => Forall (call_ok prog (length prog)) calls) prog.
    Hypothesis Htot : total_needed prog < 2 ^ 31.

    Lemma region_ok i calls : nth_error prog i = Some calls -> offsets_ok calls /\ rows_needed calls < 2 ^ 31.
    Proof.
      intro H. apply nth_error_In in H. split.
      - rewrite Forall_forall in Hok. exact (call_ok_offsets _ _ _ (Hok _ H)).
      - pose proof (total_needed_in prog calls H). lia.
    Qed.

    Lemma shapes_index : map sh_index (measure_all prog) = seq 0 (length (measure_all prog)).
    Proof.
      rewrite measure_all_length. unfold measure_all.
      assert (G : forall p b, (forall calls, In calls p -> offsets_ok calls /\ rows_needed calls < 2 ^ 31) ->
        map sh_index (map (fun x => measure (fst x) (snd x)) (combine (seq b (length p)) p)) = seq b (length p)).
      { induction p as [|calls p IH]; intros b H; simpl; [reflexivity|].
        destruct (H calls (or_introl eq_refl)) as [O R]. destruct (measure_shape b calls O ltac:(lia)) as [-> _].
        f_equal. apply IH. intros c Hc. apply H. now right. }
      apply G. intros calls H. apply In_nth_error in H. destruct H as [i H]. exact (region_ok i calls H).
    Qed.
    Lemma shapes_in sh : In sh (measure_all prog) -> exists i calls, nth_error prog i = Some calls /\ sh = measure i calls.
    Proof.
      intro H. apply In_nth_error in H. destruct H as [i H]. rewrite measure_all_nth in H. destruct (nth_error prog i) as [calls|] eqn:E; [|discriminate].
      injection H as <-. exists i, calls. auto.
    Qed.
    Lemma shapes_proper : Forall proper (measure_all prog).
    Proof.
      rewrite Forall_forall. intros sh H. destruct (shapes_in sh H) as [i [calls [E ->]]]. destruct (region_ok i calls E) as [O R].
      apply (measure_shape i calls O ltac:(lia)).
    Qed.
    Lemma shapes_total : total_rows (measure_all prog) = total_needed prog.
    Proof.
      assert (G : forall p b, (forall calls, In calls p -> offsets_ok calls /\ rows_needed calls < 2 ^ 31) ->
        total_rows (map (fun x => measure (fst x) (snd x)) (combine (seq b (length p)) p)) = total_needed p).
      { induction p as [|calls p IH]; intros b H; simpl; [reflexivity|].
        destruct (H calls (or_introl eq_refl)) as [O R]. destruct (measure_shape b calls O ltac:(lia)) as [_ [-> _]].
        fold (total_needed p). f_equal. apply IH. intros c Hc. apply H. now right. }
      apply G. intros calls H. apply In_nth_error in H. destruct H as [i H]. exact (region_ok i calls H).
    Qed.

    Lemma plan_spec : exists order ca, let starts := map fst (sort2 order) in
      slot_in_biggest_advice_first arrange sort1 sort2 (measure_all prog) = Some (starts, ca) /\
      greedy order /\ StronglySorted (fun a b => advice_area b <= advice_area a) (map snd order) /\
      Permutation order (combine starts (measure_all prog)) /\ tracks ca order (total_needed prog) /\
      length starts = length prog /\ starts_ok prog starts (length prog) /\ disjoint prog starts /\
      (forall c r, busy (allocs ca c) r <-> covered prog starts c r) /\
      (forall r, 0 <= r -> (r < first_unassigned_row ca <-> used prog starts r)).
    Proof.
      destruct (biggest_spec arrange sort1 sort2 Har H1 H2 (measure_all prog) shapes_index shapes_proper ltac:(rewrite shapes_total; exact Htot))
        as [order [ca [E1 [G [S [T [E2 [E3 P]]]]]]]].
      rewrite shapes_total in T. exists order, ca. cbv zeta. set (starts := map fst (sort2 order)) in *.
      assert (Elen : length starts = length prog).
      { unfold starts. rewrite map_length. rewrite <- (map_length snd), E3. apply measure_all_length. }
      (* pairs of start and region *)
      assert (Hpair : forall i calls s, nth_error prog i = Some calls -> nth_error starts i = Some s -> In (s, measure i calls) order).
      { intros i calls s Hc Hs. eapply Permutation_in; [apply Permutation_sym; exact P|].
        assert (N : nth_error (combine starts (measure_all prog)) i = Some (s, measure i calls)).
        { assert (M : nth_error (measure_all prog) i = Some (measure i calls)) by (rewrite measure_all_nth, Hc; reflexivity).
          revert M. generalize (measure i calls) as sh0. clear - Hs. revert i Hs. generalize (measure_all prog). induction starts as [|a l IH]; intros l2 [|i] Hs sh0 M; destruct l2; simpl in *; try discriminate.
          - congruence.
          - now apply IH. }
        eapply nth_error_In; exact N. }
      assert (Hpair' : forall q, In q order -> exists i calls, nth_error prog i = Some calls /\ nth_error starts i = Some (fst q) /\ snd q = measure i calls).
      { intros q Hq. apply (Permutation_in _ P) in Hq. apply In_nth_error in Hq. destruct Hq as [i Hq].
        assert (N : nth_error starts i = Some (fst q) /\ nth_error (measure_all prog) i = Some (snd q)).
        { clear - Hq. revert i Hq. generalize (measure_all prog). induction starts as [|a l IH]; intros l2 [|i] Hq; destruct l2; simpl in *; try discriminate.
          - injection Hq as <-. auto.
          - now apply IH. }
        destruct N as [N1 N2]. rewrite measure_all_nth in N2. destruct (nth_error prog i) as [calls|] eqn:E; [|discriminate]. injection N2 as N2.
        exists i, calls. auto. }
      assert (Hprop : Forall (fun q : Z * shape => proper (snd q)) order).
      { rewrite Forall_forall. intros q Hq. destruct (Hpair' q Hq) as [i [calls [Hc [_ ->]]]]. destruct (region_ok i calls Hc) as [O R]. apply (measure_shape i calls O ltac:(lia)). }
      assert (Hstart : forall q, In q order -> 0 <= fst q /\ fst q + sh_rows (snd q) <= Z.max 0 (total_needed prog)).
      { intros q Hq. apply in_split in Hq as Hsp. destruct Hsp as [pre [post Esp]]. destruct (G pre q post Esp) as [A1 [A2 A3]]. split; [exact A1|].
        rewrite Forall_forall in Hprop. destruct (Hprop q Hq) as [_ [R0 Rp]]. destruct T as [_ T]. destruct (sh_columns (snd q)) as [|c cs] eqn:Ec.
        - assert (fst q <= 0) by (apply A3; [lia|]; intros q' _ c Hc; simpl in Hc; rewrite Ec in Hc; destruct Hc).
          destruct (Hpair' q Hq) as [i [calls [Hc [_ Em]]]]. destruct (region_ok i calls Hc) as [O R]. destruct (measure_shape i calls O ltac:(lia)) as [_ [M2 _]].
          rewrite Em, M2. pose proof (total_needed_in prog calls (nth_error_In _ _ Hc)). lia.
        - destruct (T c) as [[_ W] I]. assert (Hi : In (fst q, sh_rows (snd q)) (allocs ca c)) by (apply I; exists q; rewrite Ec; split; [exact Hq|]; split; [now left | reflexivity]).
          specialize (W _ _ Hi). lia. }
      assert (Hcov : forall c r, busy (allocs ca c) r <-> covered prog starts c r).
      { intros c r. rewrite (tracks_busy ca order (total_needed prog) c T r). split.
        - intros [q [Hq [Hc Hr]]]. destruct (Hpair' q Hq) as [i [calls [Hp [Hs Em]]]]. destruct (region_ok i calls Hp) as [O R].
          destruct (measure_shape i calls O ltac:(lia)) as [_ [M2 [_ M4]]]. rewrite Em in Hc, Hr. rewrite M2 in Hr. exists i, calls, (fst q).
          split; [exact Hp|]. split; [exact Hs|]. split; [now apply M4 | exact Hr].
        - intros [i [calls [s [Hp [Hs [Hc Hr]]]]]]. destruct (region_ok i calls Hp) as [O R].
          destruct (measure_shape i calls O ltac:(lia)) as [_ [M2 [_ M4]]]. exists (s, measure i calls). split; [now apply Hpair|].
          simpl. split; [now apply M4 | rewrite M2; exact Hr]. }
      split; [exact E2|]. split; [exact G|]. split; [exact S|]. split; [exact P|]. split; [exact T|]. split; [exact Elen|]. split; [|split; [|split; [exact Hcov|]]].
      - intros j calls Hj Hp. destruct (nth_error starts j) as [s|] eqn:Es; [|apply nth_error_None in Es; lia]. exists s. split; [reflexivity|].
        destruct (Hstart _ (Hpair j calls s Hp Es)) as [A B]. simpl in A, B. destruct (region_ok j calls Hp) as [O R].
        destruct (measure_shape j calls O ltac:(lia)) as [_ [M2 _]]. rewrite M2 in B. lia.
      - intros i j calls calls' s s' c r Hij Hp Hp' Hs Hs' Hc Hc' [Hr Hr'].
        destruct (region_ok i calls Hp) as [O R]. destruct (measure_shape i calls O ltac:(lia)) as [M1 [M2 [_ M4]]].
        destruct (region_ok j calls' Hp') as [O' R']. destruct (measure_shape j calls' O' ltac:(lia)) as [M1' [M2' [_ M4']]].
        destruct (In_nth_error _ _ (Hpair i calls s Hp Hs)) as [a Ha]. destruct (In_nth_error _ _ (Hpair j calls' s' Hp' Hs')) as [b Hb].
        assert (Hab : a <> b). { intros ->. rewrite Ha in Hb. injection Hb as _ X. apply (f_equal sh_index) in X. congruence. }
        destruct (greedy_apart order G a b _ _ Ha Hb Hab c) as [X|X]; simpl in *; [now apply M4 | now apply M4' | lia | lia].
      - intros r Hr. rewrite (first_unassigned_end ca order (total_needed prog) T G Hprop ltac:(lia) r Hr). split.
        + intros [q [Hq [Hc Hlt]]]. destruct (Hpair' q Hq) as [i [calls [Hp [Hs Em]]]]. destruct (region_ok i calls Hp) as [O R].
          destruct (measure_shape i calls O ltac:(lia)) as [_ [M2 [[_ [_ Mp]] M4]]]. rewrite Em in Hc, Hlt. rewrite M2 in *.
          exists i, calls, (fst q). split; [exact Hp|]. split; [exact Hs|]. split; [now apply Mp | exact Hlt].
        + intros [i [calls [s [Hp [Hs [Hpos Hlt]]]]]]. destruct (region_ok i calls Hp) as [O R].
          destruct (measure_shape i calls O ltac:(lia)) as [_ [M2 [_ M4]]]. exists (s, measure i calls). split; [now apply Hpair|]. simpl. rewrite M2. split; [|exact Hlt].
          intro X. assert (rows_needed calls = 0); [|lia].
          assert (Hnone : forall k, In k calls -> call_write k = None).
          { intros k Hk. destruct (call_write k) as [[[c o] v]|] eqn:E; [|reflexivity]. exfalso. assert (Hi : In c (sh_columns (measure i calls))) by (apply M4; eauto). rewrite X in Hi. destruct Hi. }
          clear - Hnone. induction calls as [|k calls IH]; simpl; [reflexivity|]. fold (rows_needed calls). rewrite (Hnone k (or_introl eq_refl)). apply IH. intros x Hx. apply Hnone. now right.
    Qed.
  End Run.
End V1.
