(** Regions as lists of calls: shapes, events, constants. *)
From Coq Require Import ZArith Lia List Bool Sorted Permutation.
From Verif Require Import BigIntModel BufferModel LayoutModel LayoutSpec LayoutProof LayoutProof2 LayoutProof3 LayoutProof4.
Import ListNotations.
Open Scope Z_scope.

Section Calls.
  Context {V : Type}.
  Implicit Types (calls : list (call V)) (prog : list (list (call V))).

  Lemma holds_app {X} (w : X -> option (column * Z * option V)) l1 l2 c r :
    holds w (l1 ++ l2) c r = match holds w l2 c r with Some v => Some v | None => holds w l1 c r end.
  Proof. induction l1 as [|x l1 IH]; simpl; [now destruct (holds w l2 c r)|]. rewrite IH. now destruct (holds w l2 c r). Qed.
  Lemma holds_in {X} (w : X -> option (column * Z * option V)) l c r v : holds w l c r = Some v -> exists x, In x l /\ w x = Some (c, r, v).
  Proof.
    induction l as [|x l IH]; simpl; [discriminate|]. destruct (holds w l c r) as [v'|].
    - intro H. injection H as ->. destruct (IH eq_refl) as [y [Hy E]]. exists y. split; [now right | exact E].
    - destruct (w x) as [[[c' r'] v']|] eqn:E; [|discriminate]. destruct (column_eqb c' c && (r' =? r)) eqn:E2; [|discriminate].
      intro H. injection H as ->. apply andb_prop in E2. destruct E2 as [E2 E3]. apply column_eqb_eq in E2. apply Z.eqb_eq in E3. subst.
      exists x. split; [now left | exact E].
  Qed.
  Lemma in_holds {X} (w : X -> option (column * Z * option V)) l c r v x : In x l -> w x = Some (c, r, v) -> holds w l c r <> None.
  Proof.
    induction l as [|y l IH]; intros Hx E; [destruct Hx|]; destruct Hx as [<-|Hx]; simpl.
    - destruct (holds w l c r); [discriminate|]. rewrite E, column_eqb_refl, Z.eqb_refl. discriminate.
    - specialize (IH Hx E). destruct (holds w l c r); [discriminate | contradiction].
  Qed.

  Lemma touched_write (k : call V) : touched k = option_map fst (call_write k).
  Proof. destruct k; reflexivity. Qed.

  Lemma rows_needed_nonneg calls : 0 <= rows_needed calls.
  Proof. induction calls as [|k calls IH]; simpl; [lia|]. fold (rows_needed calls). destruct (call_write k) as [[[c o] v]|]; lia. Qed.
  Lemma rows_needed_in calls k c o v : In k calls -> call_write k = Some (c, o, v) -> o < rows_needed calls.
  Proof.
    induction calls as [|x calls IH]; intros Hk E; [destruct Hk|]; destruct Hk as [<-|Hk]; simpl; fold (rows_needed calls); [rewrite E; lia|]. specialize (IH Hk E).
    destruct (call_write x) as [[[c' o'] v']|]; lia.
  Qed.

  Definition offsets_ok calls : Prop := forall k c o v, In k calls -> call_write k = Some (c, o, v) -> 0 <= o.

  Lemma measure_spec calls : offsets_ok calls -> rows_needed calls < 2 ^ 32 -> forall sh0, 0 <= sh_rows sh0 -> NoDup (sh_columns sh0) ->
    let sh := fold_left update calls sh0 in
    sh_index sh = sh_index sh0 /\ sh_rows sh = Z.max (sh_rows sh0) (rows_needed calls) /\ NoDup (sh_columns sh) /\
    forall c, In c (sh_columns sh) <-> In c (sh_columns sh0) \/ exists k o v, In k calls /\ call_write k = Some (c, o, v).
  Proof.
    induction calls as [|k calls IH]; intros Ho Hr sh0 H0 Hn; cbn [fold_left].
    - split; [reflexivity|]. split; [simpl; lia|]. split; [exact Hn|]. intro c. split; [now left | intros [H|[k [o [v [[] _]]]]]; exact H].
    - assert (Ho' : offsets_ok calls) by (intros k' c o v Hk; apply Ho; now right).
      simpl in Hr. fold (rows_needed calls) in Hr. pose proof (rows_needed_nonneg calls) as Hpos.
      assert (Hr' : rows_needed calls < 2 ^ 32) by (destruct (call_write k) as [[[c o] v]|]; lia).
      assert (Hu : sh_index (update sh0 k) = sh_index sh0 /\
        sh_rows (update sh0 k) = match call_write k with Some (_, o, _) => Z.max (sh_rows sh0) (o + 1) | None => sh_rows sh0 end /\
        NoDup (sh_columns (update sh0 k)) /\ forall c, In c (sh_columns (update sh0 k)) <-> In c (sh_columns sh0) \/ exists o v, call_write k = Some (c, o, v)).
      { unfold update. rewrite touched_write. destruct (call_write k) as [[[c o] v]|] eqn:E; cbn [option_map fst].
        - assert (0 <= o) by (eapply Ho; [now left | exact E]). cbn [sh_index sh_rows sh_columns]. split; [reflexivity|].
          split; [rewrite trunc_small by lia; reflexivity|]. destruct (existsb (column_eqb c) (sh_columns sh0)) eqn:Ex.
          + apply existsb_exists in Ex. destruct Ex as [c' [Hc' E']]. apply column_eqb_eq in E'. subst c'. split; [exact Hn|]. intro c'. split; [now left|].
            intros [H'|[o' [v' X]]]; [exact H' | injection X as <- _ _; exact Hc'].
          + assert (Hni : ~ In c (sh_columns sh0)).
            { intro X. assert (existsb (column_eqb c) (sh_columns sh0) = true) by (apply existsb_exists; exists c; split; [exact X | apply column_eqb_refl]). congruence. }
            split; [apply NoDup_app_intro; [exact Hn | repeat constructor; intros [] | intros x Hx [<-|[]]; contradiction]|].
            intro c'. rewrite in_app_iff. split.
            * intros [X|[<-|[]]]; [now left | right; eauto].
            * intros [X|[o' [v' X]]]; [now left | injection X as <- _ _; right; now left].
        - split; [reflexivity|]. split; [reflexivity|]. split; [exact Hn|]. intro c. split; [now left | intros [X|[o [v X]]]; [exact X | discriminate]]. }
      destruct Hu as [U1 [U2 [U3 U4]]].
      destruct (IH Ho' Hr' (update sh0 k)) as [I1 [I2 [I3 I4]]]; [rewrite U2; destruct (call_write k) as [[[c o] v]|]; lia | exact U3|].
      split; [congruence|]. split.
      { rewrite I2, U2. simpl. fold (rows_needed calls). destruct (call_write k) as [[[c o] v]|]; lia. }
      split; [exact I3|]. intro c. rewrite I4, U4. split.
      + intros [[X|[o [v X]]]|[k' [o [v [Hk' X]]]]]; [now left | right; exists k, o, v; split; [now left | exact X] | right; exists k', o, v; split; [now right | exact X]].
      + intros [X|[k' [o [v [[<-|Hk'] X]]]]]; [left; now left | left; right; eauto | right; eauto].
  Qed.

  Lemma measure_shape i calls : offsets_ok calls -> rows_needed calls < 2 ^ 32 ->
    sh_index (measure i calls) = i /\ sh_rows (measure i calls) = rows_needed calls /\ proper (measure i calls) /\
    (forall c, In c (sh_columns (measure i calls)) <-> exists k o v, In k calls /\ call_write k = Some (c, o, v)).
  Proof.
    intros Ho Hr. destruct (measure_spec calls Ho Hr (mk_shape i [] 0)) as [M1 [M2 [M3 M4]]]; [simpl; lia | constructor|].
    change (fold_left update calls (mk_shape i [] 0)) with (measure i calls) in *. cbn [sh_index sh_rows sh_columns] in *.
    pose proof (rows_needed_nonneg calls) as Hp. split; [exact M1|]. split; [lia|]. split.
    - split; [exact M3|]. split; [lia|]. intro Hne. destruct (sh_columns (measure i calls)) as [|c cs] eqn:E; [contradiction|].
      destruct (proj1 (M4 c)) as [[]|[k [o [v [Hk X]]]]]; [now left|]. pose proof (rows_needed_in calls k c o v Hk X). pose proof (Ho k c o v Hk X). lia.
    - intro c. rewrite M4. simpl. tauto.
  Qed.

  (** The starts that [row_of] uses lie in range. *)
  Definition starts_ok prog (regions : list Z) (n : nat) : Prop :=
    forall j calls, (j < n)%nat -> nth_error prog j = Some calls -> exists s, nth_error regions j = Some s /\ 0 <= s /\ s + rows_needed calls <= 2 ^ 32.

  Lemma row_of_cell prog regions n x : starts_ok prog regions n -> cell_ok prog n x ->
    exists row, row_of regions (cl_region x) (cl_offset x) = Some row /\ at_row regions (cl_region x) (cl_offset x) row.
  Proof.
    intros Hs [Hn [calls [Hc Ho]]]. destruct (Hs _ _ Hn Hc) as [s [E [H0 H1]]]. exists (s + cl_offset x). unfold row_of, at_row. rewrite E. simpl.
    split; [rewrite trunc_small by lia; reflexivity | eauto].
  Qed.

  Lemma plan_call_spec prog regions n i calls s k : starts_ok prog regions n -> (i < n)%nat -> nth_error prog i = Some calls ->
    nth_error regions i = Some s -> In k calls -> call_ok prog n k ->
    exists ev, plan_call regions i k = Some (ev, call_constants i k) /\
      (forall c r, holds event_write ev c r = holds call_write [k] c (r - s)) /\
      (forall l r, k = ConstrainEqual l r -> exists a b, at_row regions (cl_region l) (cl_offset l) a /\ at_row regions (cl_region r) (cl_offset r) b /\
         In (EvCopy (cl_column l) a (cl_column r) b) ev) /\
      (forall inst row c o v, k = AssignAdviceFromInstance inst row c o v -> exists a, at_row regions i o a /\ In (EvCopy (Advice c) a (Instance inst) row) ev).
  Proof.
    intros Hs Hi Hc Hr Hk Hok. destruct (Hs i calls Hi Hc) as [s' [E [H0 H1]]]. rewrite Hr in E. injection E as <-.
    assert (Hrow : forall c o v, call_write k = Some (c, o, v) -> 0 <= o -> row_of regions i o = Some (s + o)).
    { intros c o v X Ho. pose proof (rows_needed_in calls k c o v Hk X). unfold row_of. rewrite Hr. simpl. rewrite trunc_small by lia. reflexivity. }
    assert (Hw : forall (c' : column) o r, (s + o =? r) = (o =? r - s)).
    { intros _ o r. destruct (Z.eqb_spec (s + o) r), (Z.eqb_spec o (r - s)); try reflexivity; lia. }
    destruct k as [sl o|c o v|c o v|inst row c o v|c o v|x v|l r]; cbn [plan_call call_ok call_constants] in *.
    1-3,5: rewrite (Hrow _ _ _ eq_refl Hok); cbn [option_map]; eexists; (split; [reflexivity|]; split; [intros c' r; cbn [holds event_write call_write]; now rewrite (Hw c' o r)|]; split; [discriminate | discriminate]).
    - rewrite (Hrow _ _ _ eq_refl Hok). cbn [option_map]. eexists. split; [reflexivity|]. split; [intros c' r; cbn [holds event_write call_write]; now rewrite (Hw c' o r)|]. split; [discriminate|].
      intros inst' row' c' o' v' X. injection X as <- <- <- <- <-. exists (s + o). split; [exists s; auto | right; now left].
    - exists []. split; [reflexivity|]. split; [reflexivity|]. split; discriminate.
    - destruct Hok as [Hl Hrr]. destruct (row_of_cell _ _ _ _ Hs Hl) as [a [Ea Aa]]. destruct (row_of_cell _ _ _ _ Hs Hrr) as [b [Eb Ab]].
      unfold copy. rewrite Ea, Eb. cbn [option_map]. eexists. split; [reflexivity|]. split; [reflexivity|]. split; [|discriminate].
      intros l' r' X. injection X as <- <-. exists a, b. split; [exact Aa|]. split; [exact Ab | now left].
  Qed.

  Lemma plan_region_spec prog regions n i calls s : starts_ok prog regions n -> (i < n)%nat -> nth_error prog i = Some calls ->
    nth_error regions i = Some s -> Forall (call_ok prog n) calls ->
    exists ev, plan_region regions i calls = Some (ev, constants_of i calls) /\
      (forall c r, holds event_write ev c r = holds call_write calls c (r - s)) /\
      (forall l r, In (ConstrainEqual l r) calls -> exists a b, at_row regions (cl_region l) (cl_offset l) a /\ at_row regions (cl_region r) (cl_offset r) b /\
         In (EvCopy (cl_column l) a (cl_column r) b) ev) /\
      (forall inst row c o v, In (AssignAdviceFromInstance inst row c o v) calls -> exists a, at_row regions i o a /\ In (EvCopy (Advice c) a (Instance inst) row) ev).
  Proof.
    intros Hs Hi Hc Hr Hok.
    assert (G : forall part, incl part calls -> exists ev, plan_region regions i part = Some (ev, constants_of i part) /\
      (forall c r, holds event_write ev c r = holds call_write part c (r - s)) /\
      (forall l r, In (ConstrainEqual l r) part -> exists a b, at_row regions (cl_region l) (cl_offset l) a /\ at_row regions (cl_region r) (cl_offset r) b /\
         In (EvCopy (cl_column l) a (cl_column r) b) ev) /\
      (forall inst row c o v, In (AssignAdviceFromInstance inst row c o v) part -> exists a, at_row regions i o a /\ In (EvCopy (Advice c) a (Instance inst) row) ev)).
    { induction part as [|k part IH]; intro Hin; cbn [plan_region].
      - exists []. split; [reflexivity|]. split; [reflexivity|]. split; intros; destruct H.
      - destruct IH as [ev2 [P1 [P2 [P3 P4]]]]; [intros x Hx; apply Hin; now right|].
        rewrite Forall_forall in Hok. destruct (plan_call_spec prog regions n i calls s k Hs Hi Hc Hr (Hin k (or_introl eq_refl)) (Hok k (Hin k (or_introl eq_refl)))) as [ev1 [Q1 [Q2 [Q3 Q4]]]].
        rewrite Q1, P1. exists (ev1 ++ ev2). split; [reflexivity|]. split; [|split].
        + intros c r. rewrite holds_app, P2, Q2. reflexivity.
        + intros l r [X|X]; [destruct (Q3 _ _ X) as [a [b [A [B C]]]] | destruct (P3 _ _ X) as [a [b [A [B C]]]]]; exists a, b; (split; [exact A|]; split; [exact B|]; apply in_or_app); tauto.
        + intros inst row c o v [X|X]; [destruct (Q4 _ _ _ _ _ X) as [a [A C]] | destruct (P4 _ _ _ _ _ X) as [a [A C]]]; exists a; (split; [exact A|]; apply in_or_app); tauto. }
    apply G. intros x Hx. exact Hx.
  Qed.
End Calls.
