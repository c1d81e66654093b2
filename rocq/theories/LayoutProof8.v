(** The simple floor planner. *)
From Coq Require Import ZArith Lia List Bool Sorted Permutation.
From Verif Require Import BigIntModel BufferModel LayoutModel LayoutSpec LayoutProof LayoutProof2 LayoutProof3 LayoutProof4 LayoutProof5 LayoutProof6.
Import ListNotations.
Open Scope Z_scope.

Section Simple.
  Context {V : Type}.
  Implicit Types (calls : list (call V)) (prog pre : list (list (call V))).

  Lemma fold_put (t : Z) cols : forall m c, get 0 (fold_left (fun m c => put m c t) cols m) c = if existsb (column_eqb c) cols then t else get 0 m c.
  Proof.
    induction cols as [|k cols IH]; intros m c; simpl; [reflexivity|]. rewrite IH. destruct (existsb (column_eqb c) cols); [now rewrite orb_true_r|].
    rewrite orb_false_r. destruct (column_eqb c k) eqn:E; [apply column_eqb_eq in E; subst; apply get_put_same|].
    apply get_put_other. apply column_eqb_neq in E. congruence.
  Qed.
  Lemma existsb_column c cols : existsb (column_eqb c) cols = true <-> In c cols.
  Proof.
    rewrite existsb_exists. split; [intros [k [Hk E]]; apply column_eqb_eq in E; now subst | intro H; exists c; split; [exact H | apply column_eqb_refl]].
  Qed.

  Lemma assign_constants_spec prog regions n cc : starts_ok prog regions n -> forall (cs : list (V * cell)) next, 0 <= next -> next + Z.of_nat (length cs) < 2 ^ 32 ->
    (forall v x, In (v, x) cs -> cell_ok prog n x) ->
    exists e : list (event V), assign_constants regions cc next cs = Some (e, next + Z.of_nat (length cs)) /\
      (forall c r v, holds event_write e c r = Some v -> c = Fixed cc /\ next <= r < next + Z.of_nat (length cs)) /\
      (forall v x, In (v, x) cs -> exists r row, holds event_write e (Fixed cc) r = Some (Some v) /\
         at_row regions (cl_region x) (cl_offset x) row /\ In (EvCopy (Fixed cc) r (cl_column x) row) e).
  Proof.
    intro Hs. induction cs as [|[v x] cs IH]; intros next H0 Hb Hc; cbn [assign_constants].
    - exists []. simpl. rewrite Z.add_0_r. split; [reflexivity|]. split; [discriminate | intros v x []].
    - cbn [length] in Hb |- *. rewrite Nat2Z.inj_succ in Hb |- *.
      destruct (row_of_cell prog regions n x Hs (Hc v x (or_introl eq_refl))) as [row [Er Ar]]. rewrite Er.
      rewrite (trunc_small 32 (next + 1)) by lia.
      destruct (IH (next + 1)) as [e [P1 [P2 P3]]]; [lia | lia | intros v' x' Hi; apply (Hc v' x'); now right|].
      rewrite P1. eexists. split; [f_equal; f_equal; lia|]. split.
      + intros c r v'. cbn [holds event_write]. destruct (holds event_write e c r) eqn:E.
        * intros _. destruct (P2 _ _ _ E). split; [assumption | lia].
        * destruct (column_eqb (Fixed cc) c && (next =? r)) eqn:E2; [|discriminate]. intros _. apply andb_prop in E2. destruct E2 as [E2 E3].
          apply column_eqb_eq in E2. apply Z.eqb_eq in E3. subst. split; [reflexivity | lia].
      + intros v' x' [X|X].
        * injection X as <- <-. exists next, row. split; [|split; [exact Ar | right; now left]]. cbn [holds event_write].
          destruct (holds event_write e (Fixed cc) next) eqn:E; [destruct (P2 _ _ _ E); lia|]. now rewrite column_eqb_refl, Z.eqb_refl.
        * destruct (P3 v' x' X) as [r' [row' [B [C D]]]]. exists r', row'. split; [cbn [holds]; now rewrite B|]. split; [exact C | right; now right].
  Qed.

  (** How many rows the first regions and their constants take at most. *)
  Definition bound pre : Z := total_needed pre + Z.of_nat (count_constants 0 pre).
  Lemma total_needed_snoc pre calls : total_needed (pre ++ [calls]) = total_needed pre + rows_needed calls.
  Proof. unfold total_needed. induction pre as [|x pre IH]; simpl; lia. Qed.
  Lemma count_snoc pre calls : forall b, count_constants b (pre ++ [calls]) = (count_constants b pre + length (constants_of (b + length pre) calls))%nat.
  Proof.
    induction pre as [|x pre IH]; intro b; cbn [count_constants app length]; [cbn; rewrite !Nat.add_0_r; reflexivity|]. rewrite IH. replace (S b + length pre)%nat with (b + S (length pre))%nat by lia. lia.
  Qed.
  Lemma bound_nonneg pre : 0 <= bound pre.
  Proof. unfold bound. assert (0 <= total_needed pre) by (induction pre as [|x pre IH]; simpl; [lia|]; fold (total_needed pre); pose proof (rows_needed_nonneg x); lia). lia. Qed.
  Lemma bound_app pre post : bound pre <= bound (pre ++ post).
  Proof.
    revert pre. induction post as [|calls post IH]; intro pre; [rewrite app_nil_r; lia|]. replace (pre ++ calls :: post) with ((pre ++ [calls]) ++ post) by (rewrite <- app_assoc; reflexivity).
    transitivity (bound (pre ++ [calls])); [|apply IH]. unfold bound. rewrite total_needed_snoc, count_snoc. pose proof (rows_needed_nonneg calls). lia.
  Qed.

  Definition inv (constants : list nat) pre (st : chip V) : Prop :=
    length (ch_regions st) = length pre /\
    (forall c, 0 <= get 0 (ch_columns st) c <= bound pre) /\
    (forall i calls s, nth_error pre i = Some calls -> nth_error (ch_regions st) i = Some s -> 0 <= s /\ s + rows_needed calls <= bound pre) /\
    (forall c r v, holds event_write (ch_events st) c r = Some v -> r < get 0 (ch_columns st) c) /\
    (forall c r, covered pre (ch_regions st) c r -> r < get 0 (ch_columns st) c) /\
    disjoint pre (ch_regions st) /\ regions_kept pre (ch_regions st) (ch_events st) /\ constants_kept constants pre (ch_regions st) (ch_events st) /\
    copies_kept pre (ch_regions st) (ch_events st) /\ nothing_else constants pre (ch_regions st) (ch_events st).

  Lemma nth_snoc {A} (l : list A) a i x : nth_error (l ++ [a]) i = Some x -> ((i < length l)%nat /\ nth_error l i = Some x) \/ (i = length l /\ x = a).
  Proof.
    intro H. destruct (Nat.lt_ge_cases i (length l)) as [L|L].
    - left. rewrite nth_error_app1 in H by exact L. auto.
    - right. rewrite nth_error_app2 in H by exact L. destruct (i - length l)%nat eqn:E; simpl in H; [injection H as <-; split; [lia | reflexivity] | destruct n; discriminate].
  Qed.
  Lemma at_row_app regions s i o r : at_row regions i o r -> at_row (regions ++ [s]) i o r.
  Proof. intros [s' [H E]]. exists s'. split; [|exact E]. rewrite nth_error_app1; [exact H|]. apply nth_error_Some. congruence. Qed.

  Lemma step_inv constants prog pre calls post st : prog = pre ++ calls :: post -> bound prog < 2 ^ 32 ->
    (forall i cs, nth_error prog i = Some cs -> Forall (call_ok prog (S i)) cs) ->
    (constants <> [] \/ constants_of (length pre) calls = []) ->
    inv constants pre st -> exists st', chip_assign_region constants st calls = Some st' /\ inv constants (pre ++ [calls]) st'.
  Proof.
    intros E Hb Hok Hcst [I1 [I2 [I3 [I4 [I5 [I6 [I7 [I8 [I9 I10]]]]]]]]].
    set (L := length pre) in *.
    assert (HnL : nth_error prog L = Some calls) by (rewrite E; unfold L; rewrite nth_error_app2, Nat.sub_diag by lia; reflexivity).
    pose proof (Hok L calls HnL) as Hokc. pose proof (call_ok_offsets _ _ _ Hokc) as Ho.
    assert (Hb' : bound (pre ++ [calls]) < 2 ^ 32).
    { pose proof (bound_app (pre ++ [calls]) post) as X. rewrite <- app_assoc in X. cbn [app] in X. rewrite <- E in X. lia. }
    assert (Ebound : bound (pre ++ [calls]) = bound pre + rows_needed calls + Z.of_nat (length (constants_of L calls))).
    { unfold bound. rewrite total_needed_snoc, count_snoc. simpl. unfold L. lia. }
    pose proof (rows_needed_nonneg calls) as Hr0. pose proof (bound_nonneg pre) as Hbn.
    destruct (measure_shape L calls Ho ltac:(lia)) as [M1 [M2 [M3 M4]]].
    unfold chip_assign_region. rewrite I1. fold L. set (sh := measure L calls) in *. cbv zeta.
    set (s := fold_left (fun s c => Z.max s (get 0 (ch_columns st) c)) (sh_columns sh) 0).
    destruct (fold_max_spec (get 0 (ch_columns st)) (sh_columns sh) 0) as [S1 [S2 S3]]. fold s in S1, S2, S3.
    assert (Hs : 0 <= s <= bound pre) by (destruct S3 as [->|[c [_ ->]]]; [lia | apply I2]).
    set (regions := ch_regions st ++ [s]).
    set (columns := fold_left (fun m c => put m c (trunc 32 (s + sh_rows sh))) (sh_columns sh) (ch_columns st)).
    assert (Hcol : forall c, get 0 columns c = if existsb (column_eqb c) (sh_columns sh) then s + rows_needed calls else get 0 (ch_columns st) c).
    { intro c. unfold columns. rewrite fold_put, M2, trunc_small by lia. reflexivity. }
    assert (Hcol_in : forall c, (exists k o v, In k calls /\ call_write k = Some (c, o, v)) -> get 0 columns c = s + rows_needed calls /\ get 0 (ch_columns st) c <= s).
    { intros c Hc. apply M4 in Hc. rewrite Hcol. split; [now rewrite (proj2 (existsb_column c _) Hc) | now apply S2]. }
    assert (Hcol_mono : forall c, get 0 (ch_columns st) c <= get 0 columns c).
    { intro c. rewrite Hcol. destruct (existsb (column_eqb c) (sh_columns sh)) eqn:X; [|lia]. apply existsb_column in X. specialize (S2 c X). lia. }
    assert (Hcol_le : forall c, 0 <= get 0 columns c <= bound pre + rows_needed calls).
    { intro c. rewrite Hcol. specialize (I2 c). destruct (existsb (column_eqb c) (sh_columns sh)); lia. }
    (* the starts so far *)
    assert (HrL : nth_error regions L = Some s) by (unfold regions; rewrite nth_error_app2 by lia; rewrite I1; unfold L; rewrite Nat.sub_diag; reflexivity).
    assert (Hso : starts_ok prog regions (S L)).
    { intros j cs Hj Hc. destruct (Nat.eq_dec j L) as [->|Hne].
      - rewrite HnL in Hc. injection Hc as <-. exists s. split; [exact HrL | lia].
      - assert (Hj' : (j < length pre)%nat) by (unfold L in *; lia). rewrite E, nth_error_app1 in Hc by exact Hj'.
        destruct (nth_error (ch_regions st) j) as [sj|] eqn:Ej; [|apply nth_error_None in Ej; lia].
        destruct (I3 j cs sj Hc Ej). exists sj. split; [unfold regions; rewrite nth_error_app1 by lia; exact Ej | lia]. }
    destruct (plan_region_spec prog regions (S L) L calls s Hso ltac:(lia) HnL HrL Hokc) as [ev [P1 [P2 [P3 P4]]]].
    rewrite P1.
    (* whatever the constants are, the state that results *)
    assert (Hev : forall c r v, holds event_write ev c r = Some v -> (exists k o v, In k calls /\ call_write k = Some (c, o, v)) /\ s <= r < s + rows_needed calls).
    { intros c r v X. rewrite P2 in X. destruct (holds_covered _ _ _ _ Ho X) as [A B]. split; [exact A | lia]. }
    assert (Hcov : forall c r, covered (pre ++ [calls]) regions c r <-> covered pre (ch_regions st) c r \/ ((exists k o v, In k calls /\ call_write k = Some (c, o, v)) /\ s <= r < s + rows_needed calls)).
    { intros c r. split.
      - intros [i [cs [si [A [B [C D]]]]]]. apply nth_snoc in A. apply nth_snoc in B. destruct A as [[A1 A]|[A1 ->]].
        + destruct B as [[_ B]|[B1 _]]; [left; exists i, cs, si; auto | lia].
        + destruct B as [[B1 _]|[_ ->]]; [lia | right; auto].
      - intros [[i [cs [si [A [B [C D]]]]]]|[C D]].
        + exists i, cs, si. assert (i < length pre)%nat by (apply nth_error_Some; congruence). unfold regions. rewrite !nth_error_app1 by lia. auto.
        + exists L, calls, s. split; [unfold L; rewrite nth_error_app2, Nat.sub_diag by lia; reflexivity|]. auto. }
    assert (Hfinal : forall e cols,
      (forall c, get 0 columns c <= get 0 cols c <= bound (pre ++ [calls])) ->
      (forall c r v, holds event_write e c r = Some v -> (exists cc, c = Fixed cc /\ In cc constants) /\ get 0 columns c <= r < get 0 cols c) ->
      (forall v x, In (v, x) (constants_of L calls) -> exists cc r row, In cc constants /\ holds event_write e (Fixed cc) r = Some (Some v) /\
         at_row regions (cl_region x) (cl_offset x) row /\ In (EvCopy (Fixed cc) r (cl_column x) row) e) ->
      inv constants (pre ++ [calls]) (mk_chip regions cols (ch_events st ++ ev ++ e))).
    { intros e cols C1 C2 C3. unfold inv. cbn [ch_regions ch_columns ch_events].
      assert (Hold : forall c r v, holds event_write (ch_events st) c r = Some v -> holds event_write (ch_events st ++ ev ++ e) c r = Some v).
      { intros c r v X. rewrite holds_app. destruct (holds event_write (ev ++ e) c r) eqn:Y; [|exact X]. exfalso. specialize (I4 _ _ _ X).
        rewrite holds_app in Y. destruct (holds event_write e c r) eqn:Z'.
        - destruct (C2 _ _ _ Z') as [_ D]. specialize (Hcol_mono c). lia.
        - destruct (Hev _ _ _ Y) as [D1 D2]. destruct (Hcol_in c D1). lia. }
      assert (Hnew : forall c r v, holds event_write ev c r = Some v -> holds event_write (ch_events st ++ ev ++ e) c r = Some v).
      { intros c r v X. rewrite !holds_app. destruct (holds event_write e c r) eqn:Y; [|now rewrite X]. exfalso.
        destruct (C2 _ _ _ Y) as [_ D]. destruct (Hev _ _ _ X) as [D1 D2]. destruct (Hcol_in c D1). lia. }
      assert (Hcst' : forall c r v, holds event_write e c r = Some v -> holds event_write (ch_events st ++ ev ++ e) c r = Some v).
      { intros c r v X. rewrite !holds_app. now rewrite X. }
      split; [unfold regions; rewrite !app_length; simpl; unfold L in *; lia|]. split; [intro c; specialize (C1 c); specialize (Hcol_le c); lia|]. split.
      { intros i cs si A B. apply nth_snoc in A. apply nth_snoc in B. destruct A as [[A1 A]|[A1 ->]].
        - destruct B as [[_ B]|[B1 _]]; [|lia]. destruct (I3 _ _ _ A B). lia.
        - destruct B as [[B1 _]|[_ ->]]; lia. }
      split.
      { intros c r v. rewrite !holds_app. destruct (holds event_write e c r) eqn:Y.
        - intros _. destruct (C2 _ _ _ Y). lia.
        - destruct (holds event_write ev c r) eqn:Y2.
          + intros _. destruct (Hev _ _ _ Y2) as [D1 D2]. destruct (Hcol_in c D1). specialize (C1 c). lia.
          + intro X. specialize (I4 _ _ _ X). specialize (C1 c). specialize (Hcol_mono c). lia. }
      split.
      { intros c r X. apply Hcov in X. specialize (C1 c). specialize (Hcol_mono c). destruct X as [X|[X1 X2]]; [specialize (I5 _ _ X); lia|]. destruct (Hcol_in c X1). lia. }
      split.
      { intros i j cs cs' si sj c r Hij A A' B B' X X' [Hr Hr']. apply nth_snoc in A. apply nth_snoc in A'. apply nth_snoc in B. apply nth_snoc in B'.
        destruct A as [[A1 A]|[A1 ->]], A' as [[A1' A']|[A1' ->]].
        - destruct B as [[_ B]|[B1 _]]; [|lia]. destruct B' as [[_ B']|[B1' _]]; [|lia]. exact (I6 i j cs cs' si sj c r Hij A A' B B' X X' (conj Hr Hr')).
        - destruct B as [[_ B]|[B1 _]]; [|lia]. destruct B' as [[B1' _]|[_ ->]]; [lia|].
          assert (r < get 0 (ch_columns st) c) by (apply I5; exists i, cs, si; auto). destruct (Hcol_in c X'). lia.
        - destruct B as [[B1 _]|[_ ->]]; [lia|]. destruct B' as [[_ B']|[B1' _]]; [|lia].
          assert (r < get 0 (ch_columns st) c) by (apply I5; exists j, cs', sj; auto). destruct (Hcol_in c X). lia.
        - lia. }
      split.
      { intros i cs c o v A X. apply nth_snoc in A. destruct A as [[A1 A]|[-> ->]].
        - destruct (I7 i cs c o v A X) as [row [B C]]. exists row. split; [now apply at_row_app | now apply Hold].
        - exists (s + o). split; [exists s; auto|]. apply Hnew. rewrite P2. now replace (s + o - s) with o by lia. }
      split.
      { intros i cs k v x A Hk Hx. apply nth_snoc in A. destruct A as [[A1 A]|[-> ->]].
        - destruct (I8 i cs k v x A Hk Hx) as [cc [r [row [B1 [B2 [B3 B4]]]]]]. exists cc, r, row. split; [exact B1|]. split; [now apply Hold|]. split; [now apply at_row_app | apply in_or_app; now left].
        - destruct (C3 v x) as [cc [r [row [B1 [B2 [B3 B4]]]]]]; [apply in_flat_map; exists k; auto|]. exists cc, r, row. split; [exact B1|]. split; [now apply Hcst'|].
          split; [exact B3|]. apply in_or_app. right. apply in_or_app. now right. }
      split.
      { intros i cs A. apply nth_snoc in A. destruct A as [[A1 A]|[-> ->]].
        - destruct (I9 i cs A) as [B1 B2]. split.
          + intros l r X. destruct (B1 _ _ X) as [a [b [D1 [D2 D3]]]]. exists a, b. split; [now apply at_row_app|]. split; [now apply at_row_app | apply in_or_app; now left].
          + intros inst row c o v X. destruct (B2 _ _ _ _ _ X) as [a [D1 D2]]. exists a. split; [now apply at_row_app | apply in_or_app; now left].
        - split.
          + intros l r X. destruct (P3 _ _ X) as [a [b [D1 [D2 D3]]]]. exists a, b. split; [exact D1|]. split; [exact D2 |]. apply in_or_app. right. apply in_or_app. now left.
          + intros inst row c o v X. destruct (P4 _ _ _ _ _ X) as [a [D1 D2]]. exists a. split; [exact D1 |]. apply in_or_app. right. apply in_or_app. now left. }
      intros c r v. rewrite !holds_app. destruct (holds event_write e c r) eqn:Y.
      - intros _. right. destruct (C2 _ _ _ Y) as [[cc [-> Hcc]] D]. exists cc. split; [reflexivity|]. split; [exact Hcc|]. intro X. apply Hcov in X.
        destruct X as [X|[X1 X2]]; [specialize (I5 _ _ X); specialize (Hcol_mono (Fixed cc)); lia|]. destruct (Hcol_in _ X1). lia.
      - destruct (holds event_write ev c r) eqn:Y2.
        + intro X. injection X as <-. left. exists L, calls, s. split; [unfold L; rewrite nth_error_app2, Nat.sub_diag by lia; reflexivity|]. split; [exact HrL|]. now rewrite <- P2.
        + intro X. destruct (I10 _ _ _ X) as [[i [cs [si [D1 [D2 D3]]]]]|[cc [-> [D1 D2]]]].
          * left. exists i, cs, si. assert (i < length pre)%nat by (apply nth_error_Some; congruence). unfold regions. rewrite !nth_error_app1 by lia. auto.
          * right. exists cc. split; [reflexivity|]. split; [exact D1|]. intro Y3. apply Hcov in Y3. destruct Y3 as [Y3|[Y3 Y4]]; [contradiction|].
            specialize (I4 _ _ _ X). destruct (Hcol_in _ Y3). lia. }
    destruct constants as [|cc rest].
    - destruct Hcst as [Hcst|Hcst]; [contradiction|]. rewrite Hcst. eexists. split; [reflexivity|].
      replace (ch_events st ++ ev) with (ch_events st ++ ev ++ []) by now rewrite app_nil_r. apply Hfinal.
      + intro c. split; [lia|]. specialize (Hcol_le c). lia.
      + discriminate.
      + rewrite Hcst. intros v x [].
    - assert (Hcells : forall v x, In (v, x) (constants_of L calls) -> cell_ok prog (S L) x).
      { intros v x Hx. apply in_flat_map in Hx. destruct Hx as [k [Hk Hx]]. rewrite Forall_forall in Hokc. specialize (Hokc k Hk).
        destruct k; simpl in Hx; try (destruct Hx; fail); destruct Hx as [Hx|[]]; injection Hx as <- <-; [|exact Hokc].
        split; [simpl; lia|]. exists calls. simpl. split; [exact HnL|]. split; [exact Hokc|]. eapply rows_needed_in; [exact Hk | reflexivity]. }
      destruct (assign_constants_spec prog regions (S L) cc Hso (constants_of L calls) (get 0 columns (Fixed cc))) as [e [A1 [A2 A3]]];
        [apply Hcol_le | specialize (Hcol_le (Fixed cc)); lia | exact Hcells|].
      rewrite A1. eexists. split; [reflexivity|]. apply Hfinal.
      + intro c. specialize (Hcol_le c). destruct (column_dec (Fixed cc) c) as [<-|Hne]; [rewrite get_put_same; lia | rewrite get_put_other by exact Hne; lia].
      + intros c r v X. destruct (A2 _ _ _ X) as [-> D]. split; [exists cc; split; [reflexivity | now left]|]. rewrite get_put_same. exact D.
      + intros v x X. destruct (A3 v x X) as [r [row D]]. exists cc, r, row. split; [now left | exact D].
  Qed.

  Lemma run_inv constants prog : bound prog < 2 ^ 32 -> (forall i cs, nth_error prog i = Some cs -> Forall (call_ok prog (S i)) cs) ->
    (constants <> [] \/ count_constants 0 prog = 0%nat) -> forall post pre st, prog = pre ++ post -> inv constants pre st ->
    exists st', chip_run constants st post = Some st' /\ inv constants prog st'.
  Proof.
    intros Hb Hok Hc. induction post as [|calls post IH]; intros pre st E Hi; cbn [chip_run].
    - exists st. split; [reflexivity|]. rewrite app_nil_r in E. now subst.
    - assert (Hc' : constants <> [] \/ constants_of (length pre) calls = []).
      { destruct Hc as [Hc|Hc]; [now left | right]. rewrite E in Hc. replace (pre ++ calls :: post) with ((pre ++ [calls]) ++ post) in Hc by (rewrite <- app_assoc; reflexivity).
        assert (G : forall (p : list (list (call V))) b q, count_constants b (q ++ p) = (count_constants b q + count_constants (b + length q) p)%nat).
        { clear. intros p b q. revert b. induction q as [|x q IHq]; intro b; simpl; [now rewrite Nat.add_0_r|]. rewrite IHq. replace (S b + length q)%nat with (b + S (length q))%nat by lia. lia. }
        rewrite G, count_snoc in Hc. simpl in Hc. destruct (constants_of (length pre) calls); [reflexivity | simpl in Hc; lia]. }
      destruct (step_inv constants prog pre calls post st E Hb Hok Hc' Hi) as [st' [E' Hi']]. rewrite E'. apply (IH (pre ++ [calls])); [now rewrite <- app_assoc | exact Hi'].
  Qed.

  Lemma simple_spec constants prog : total_needed prog + Z.of_nat (count_constants 0 prog) < 2 ^ 32 ->
    (forall i cs, nth_error prog i = Some cs -> Forall (call_ok prog (S i)) cs) -> (constants <> [] \/ count_constants 0 prog = 0%nat) ->
    exists st, simple_synthesize constants prog = Some st /\ length (ch_regions st) = length prog /\ disjoint prog (ch_regions st) /\
      regions_kept prog (ch_regions st) (ch_events st) /\ constants_kept constants prog (ch_regions st) (ch_events st) /\
      copies_kept prog (ch_regions st) (ch_events st) /\ nothing_else constants prog (ch_regions st) (ch_events st).
  Proof.
    intros Hb Hok Hc. destruct (run_inv constants prog Hb Hok Hc prog [] (mk_chip [] [] []) eq_refl) as [st [E I]].
    - split; [reflexivity|]. split; [intro c; unfold get, bound; simpl; lia|]. split; [intros [|i] cs s X; discriminate|]. split; [discriminate|].
      split; [intros c r [[|i] [cs [s [X _]]]]; discriminate|]. split; [intros [|i] j cs cs' s s' c r _ X; discriminate|].
      split; [intros [|i] cs c o v X; discriminate|]. split; [intros [|i] cs k v x X; discriminate|]. split; [intros [|i] cs X; discriminate | discriminate].
    - exists st. split; [exact E|]. destruct I as [I1 [_ [_ [_ [_ [I6 [I7 [I8 [I9 I10]]]]]]]]]. auto 10.
  Qed.
End Simple.
