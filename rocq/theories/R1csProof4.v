(** Finalize and ToMatrices, end to end. *)
From Coq Require Import List Bool Arith Lia Permutation Sorted Ring Field Field_theory.
From Verif Require Import Field R1csModel R1csSpec R1csProof R1csProof2 R1csProof3.
Import ListNotations.
Open Scope fld_scope.
Open Scope nat_scope.

Section End2End.
  Variable K : fld.
  Add Field Kr4 : (fld_theory K).
  Implicit Types (l : lc K) (calls : circuit K) (I W L : list K).

  Definition look (m : list (nat * lc K)) (k : nat) : lc K := match find_lc m k with Some e => e | None => [] end.
  Definition present ni nw (m : list (nat * lc K)) (k : nat) : Prop := exists e, find_lc m k = Some e /\ Forall (fun t => concrete ni nw (snd t)) e.

  (** Rows. *)
  Lemma row_spec ni nw l : Forall (fun t => concrete ni nw (snd t)) l -> exists row, make_row ni l = Some row /\ (0 < ni -> forall c, In c row -> snd c < ni + nw) /\
    forall I W, length I = ni -> nth 0 I 0%fld = 1%fld -> row_value (I ++ W) row = value I W [] l.
  Proof.
    induction 1 as [|t l H F (row & E & IC & IH)]; cbn [make_row]; [exists []; split; [reflexivity|]; split; [intros _ c []|]; intros; rewrite value_nil; reflexivity|].
    destruct (feqb (fst t) 0%fld) eqn:Z.
    - exists row. split; [exact E|]. split; [exact IC|]. intros I W HI H0. rewrite (IH I W HI H0), value_cons. apply feqb_eq in Z. rewrite Z. ring.
    - rewrite E. destruct (snd t) as [| |i|i|i] eqn:Et; cbn [concrete] in H; try contradiction; cbn [get_index]; eexists; (split; [reflexivity|]); (split; [intros Hni c [<-|Hc]; [cbn [snd]; lia|exact (IC Hni c Hc)]|]); intros I W HI H0;
        unfold row_value; cbn [map fsum]; fold (row_value (I ++ W) row); rewrite (IH I W HI H0), value_cons, Et; cbn [fst snd val].
      + rewrite app_nth1, H0; [reflexivity|]. destruct I; cbn [length nth] in *; [exfalso; apply (f1_neq_0 K); symmetry; exact H0|lia].
      + rewrite app_nth1 by lia. reflexivity.
      + rewrite app_nth2 by lia. do 3 f_equal. lia.
  Qed.
  Lemma matrix_spec ni nw m ks : Forall (present ni nw m) ks -> exists rows, make_matrix ni m ks = Some rows /\ length rows = length ks /\ (0 < ni -> forall row c, In row rows -> In c row -> snd c < ni + nw) /\
    forall I W, length I = ni -> nth 0 I 0%fld = 1%fld -> forall i, i < length ks -> row_value (I ++ W) (nth i rows []) = value I W [] (look m (nth i ks 0)).
  Proof.
    induction 1 as [|k ks (e & Fe & Ce) F (rows & E & Hl & IC & IH)]; cbn [make_matrix]; [exists []; split; [reflexivity|]; split; [reflexivity|]; split; [intros _ row c []|]; intros I W _ _ i Hi; inversion Hi|].
    destruct (row_spec ni nw e Ce) as (row & E1 & Hrc & Hr). rewrite Fe, E1, E. exists (row :: rows). split; [reflexivity|]. split; [cbn [length]; lia|].
    split; [intros Hni r c [<-|Hin] Hc; [exact (Hrc Hni c Hc)|exact (IC Hni r c Hin Hc)]|].
    intros I W HI H0 [|i] Hi; cbn [nth length] in *; [unfold look; rewrite Fe; exact (Hr I W HI H0)|]. apply IH; try assumption. lia.
  Qed.
  Definition row_ok I W m k : Prop := (value I W [] (look m k) * value I W [] (look m (S k)))%fld = value I W [] (look m (2 + k)).
  Lemma matrices_spec ni nw (s : cs K) ks : should_construct s = true -> n_inst s = ni -> n_con s = length ks ->
    a_con s = ks -> b_con s = map S ks -> c_con s = map (Nat.add 2) ks -> (forall k d, In k ks -> d < 3 -> present ni nw (lc_map s) (k + d)) ->
    exists m, to_matrices s = Some (Some m) /\ m_inst m = ni /\ m_wit m = n_wit s /\ m_con m = length ks /\ (0 < ni -> nw <= n_wit s -> well_shaped m) /\
      forall I W, length I = ni -> nth 0 I 0%fld = 1%fld -> (rows_hold m (I ++ W) <-> Forall (row_ok I W (lc_map s)) ks).
  Proof.
    intros Hs Hni Hc Ha Hb Hcc P. unfold to_matrices. rewrite Hs, Ha, Hb, Hcc, Hni, Hc.
    assert (P0 : Forall (present ni nw (lc_map s)) ks) by (apply Forall_forall; intros k Hk; rewrite <- (Nat.add_0_r k); apply P; [exact Hk|lia]).
    assert (P1 : Forall (present ni nw (lc_map s)) (map S ks)).
    { apply Forall_forall. intros k Hk. apply in_map_iff in Hk. destruct Hk as (j & <- & Hj). replace (S j) with (j + 1) by lia. apply P; [exact Hj|lia]. }
    assert (P2 : Forall (present ni nw (lc_map s)) (map (Nat.add 2) ks)).
    { apply Forall_forall. intros k Hk. apply in_map_iff in Hk. destruct Hk as (j & <- & Hj). replace (2 + j) with (j + 2) by lia. apply P; [exact Hj|lia]. }
    destruct (matrix_spec ni nw (lc_map s) _ P0) as (ra & Ea & La & Ca & Va). destruct (matrix_spec ni nw (lc_map s) _ P1) as (rb & Eb & Lb & Cb & Vb).
    destruct (matrix_spec ni nw (lc_map s) _ P2) as (rc & Ec & Lc & Cc & Vc). rewrite Ea, Eb, Ec. eexists. split; [reflexivity|]. cbn [m_inst m_wit m_con]. repeat (split; [reflexivity|]).
    split. { intros H0 Hw. unfold well_shaped. cbn [m_inst m_wit m_con m_a m_b m_c]. rewrite map_length in Lb, Lc. repeat (split; [assumption|]). intros row c Hin Hcr.
      enough (snd c < ni + nw) by lia. apply in_app_or in Hin. destruct Hin as [Hin|Hin]; [exact (Ca H0 row c Hin Hcr)|]. apply in_app_or in Hin. destruct Hin as [Hin|Hin]; [exact (Cb H0 row c Hin Hcr)|exact (Cc H0 row c Hin Hcr)]. }
    intros I W HI H0. unfold rows_hold. cbn [m_con m_a m_b m_c].
    assert (Eq : forall i, i < length ks -> (row_value (I ++ W) (nth i ra []) * row_value (I ++ W) (nth i rb []))%fld = row_value (I ++ W) (nth i rc []) <-> row_ok I W (lc_map s) (nth i ks 0)).
    { intros i Hi. rewrite (Va I W HI H0 i Hi), (Vb I W HI H0 i), (Vc I W HI H0 i) by (rewrite map_length; exact Hi).
      rewrite (nth_indep (map S ks) 0 (S 0)) by (rewrite map_length; exact Hi). rewrite (nth_indep (map (Nat.add 2) ks) 0 (2 + 0)) by (rewrite map_length; exact Hi).
      rewrite !map_nth. reflexivity. }
    split.
    - intros H. apply Forall_forall. intros k Hk. destruct (In_nth ks k 0 Hk) as (i & Hi & <-). apply Eq; [exact Hi|]. exact (H i Hi).
    - intros H i Hi. apply Eq; [exact Hi|]. exact (proj1 (Forall_forall _ _) H _ (nth_In ks 0 Hi)).
  Qed.

  (** IsSatisfied. *)
  Lemma check_spec (s : cs K) ks x : n_con s = length ks -> a_con s = ks -> b_con s = map S ks -> c_con s = map (Nat.add 2) ks ->
    (forall k d, In k ks -> d < 3 -> eval_index s (k + d) = Some (x (k + d))) -> setup s = false ->
    exists b, is_satisfied s = Some b /\ (b = true <-> Forall (fun k => (x k * x (S k))%fld = x (2 + k)) ks).
  Proof.
    intros Hc Ha Hb Hcc E Hs. unfold is_satisfied. rewrite Hs, Hc.
    enough (G : forall r p, ks = p ++ r -> exists b, check_rows s (length p) (length r) = Some b /\ (b = true <-> Forall (fun k => (x k * x (S k))%fld = x (2 + k)) r)) by exact (G ks [] eq_refl).
    induction r as [|k r IH]; intros p Hp; cbn [check_rows length]; [exists true; split; [reflexivity|]; split; [constructor|reflexivity]|].
    rewrite Ha, Hb, Hcc, Hp, !map_app, nth_error_app2, Nat.sub_diag by lia. cbn [nth_error map].
    rewrite !nth_error_app2, !map_length, !Nat.sub_diag by (rewrite map_length; lia). cbn [nth_error].
    assert (Hk : In k ks) by (rewrite Hp; apply in_or_app; right; left; reflexivity).
    pose proof (E k 0 Hk ltac:(lia)) as E0. pose proof (E k 1 Hk ltac:(lia)) as E1. pose proof (E k 2 Hk ltac:(lia)) as E2.
    rewrite Nat.add_0_r in E0. rewrite Nat.add_1_r in E1. rewrite (Nat.add_comm k 2) in E2. rewrite E0, E1. change (S (S k)) with (2 + k). rewrite E2.
    destruct (IH (p ++ [k])) as (b & Eb & Hbb); [rewrite <- app_assoc; exact Hp|]. rewrite app_length, Nat.add_1_r in Eb.
    destruct (feqb (x k * x (S k))%fld (x (2 + k))) eqn:Q.
    - apply feqb_eq in Q. exists b. split; [exact Eb|]. rewrite Forall_cons_iff. tauto.
    - exists false. split; [reflexivity|]. split; [discriminate|]. intros F. inversion_clear F as [|? ? F1 _]. rewrite F1, feqb_refl in Q. discriminate Q.
  Qed.

  (** The map of a circuit, and evaluation through it. *)
  Lemma find_app (m m' : list (nat * lc K)) k : find_lc (m ++ m') k = match find_lc m k with Some e => Some e | None => find_lc m' k end.
  Proof. induction m as [|[j l] m IH]; [reflexivity|]. cbn [app find_lc]. destruct (Nat.eqb j k); [reflexivity|exact IH]. Qed.
  Lemma find_combine (ls : list (lc K)) : forall a j, find_lc (combine (seq a (length ls)) ls) (a + j) = nth_error ls j.
  Proof.
    induction ls as [|l ls IH]; intros a j; cbn [length seq combine find_lc]; [destruct j; reflexivity|]. destruct j as [|j].
    - rewrite Nat.add_0_r, Nat.eqb_refl. reflexivity.
    - rewrite (proj2 (Nat.eqb_neq a (a + S j))) by lia. cbn [nth_error]. rewrite <- (IH (S a) j). f_equal. lia.
  Qed.
  Lemma assigned_spec ni nw I W (V : list K) (lcs : list (lc K)) : length I = ni -> length W = nw ->
    (forall j l, nth_error lcs j = Some l -> Forall (fun t => match snd t with VZero => False | VOne => True | VInst i => i < ni | VWit i => i < nw | VLc i => i < j end) l) ->
    (forall j l, nth_error lcs j = Some l -> nth j V 0%fld = value I W V l) ->
    forall f j, j < f -> j < length lcs -> assigned f I W (combine (seq 0 (length lcs)) lcs) (VLc j) = Some (nth j V 0%fld).
  Proof.
    intros HI HW R Vok. induction f as [|f IH]; intros j Hf Hj; [lia|]. cbn [assigned]. change j with (0 + j) at 1. rewrite find_combine.
    destruct (nth_error lcs j) as [l|] eqn:E; [|apply nth_error_None in E; lia]. rewrite (Vok j l E).
    pose proof (R j l E) as Rl. clear E.
    enough (G : forall a, fold_left (fun acc t => match acc with Some a0 => match assigned f I W (combine (seq 0 (length lcs)) lcs) (snd t) with Some x => Some (a0 + fst t * x)%fld | None => None end | None => None end) l (Some a)
      = Some (a + value I W V l)%fld) by (etransitivity; [apply (G 0%fld)|f_equal; ring]).
    induction Rl as [|t l Ht F IHl]; intros a; cbn [fold_left]; [rewrite value_nil; f_equal; ring|].
    assert (A : assigned f I W (combine (seq 0 (length lcs)) lcs) (snd t) = Some (val I W V (snd t))).
    { destruct (snd t) as [| |i|i|i]; [contradiction| | | |apply IH; lia]; destruct f; cbn [assigned val]; try reflexivity; apply nth_error_nth'; lia. }
    rewrite A, IHl, value_cons. f_equal. ring.
  Qed.

  (** Only the witnesses that exist matter. *)
  Lemma value_wit ni nw user I W W' L l : Forall (fun t => known ni nw user (snd t)) l -> (forall i, i < nw -> nth i W 0%fld = nth i W' 0%fld) -> value I W L l = value I W' L l.
  Proof.
    intros F H. induction F as [|t l Ht F IH]; [reflexivity|]. rewrite !value_cons, IH. f_equal. f_equal. destruct (snd t) as [| |i|i|i]; try reflexivity. cbn [val known] in *. apply H, Ht.
  Qed.
  Lemma holds_wit I W W' calls : forall ni nw nl user L, well_formed ni nw nl user calls -> (forall i, i < nw + length (witnesses calls) -> nth i W 0%fld = nth i W' 0%fld) ->
    holds I W L calls <-> holds I W' L calls.
  Proof.
    induction calls as [|[v|v|l0|x y z] r IH]; intros ni nw nl user L WF H; cbn [holds well_formed] in *.
    - tauto.
    - apply (IH (S ni) nw nl user); [exact WF|exact H].
    - apply (IH ni (S nw) nl user); [exact WF|]. intros i Hi. apply H. cbn. fold (witnesses r). lia.
    - destruct WF as [F WF]. rewrite (value_wit ni nw user I W W' L l0 F) by (intros i Hi; apply H; lia). apply (IH ni nw (S nl) (nl :: user)); [exact WF|exact H].
    - destruct WF as [F WF]. apply Forall_app in F. destruct F as [Fx F]. apply Forall_app in F. destruct F as [Fy Fz].
      assert (Hw : forall i, i < nw -> nth i W 0%fld = nth i W' 0%fld) by (intros i Hi; apply H; lia).
      rewrite (value_wit ni nw user I W W' L x Fx Hw), (value_wit ni nw user I W W' L y Fy Hw), (value_wit ni nw user I W W' L z Fz Hw).
      rewrite (IH ni nw (3 + nl) user _ WF H). tauto.
  Qed.

  (** The constraints for the new witnesses. *)
  Definition new_calls (new : list (lc K * nat)) : circuit K := map (fun e => Enforce (fst e) [(1%fld, VOne)] [(1%fld, VWit (snd e))]) new.
  Lemma enforce_new_calls new : forall s : cs K, enforce_new s new = synthesize s (new_calls new).
  Proof. induction new as [|[l w] r IH]; intros s; [reflexivity|]. cbn [enforce_new new_calls map synthesize fst snd]. destruct (enforce s l _ _); [apply IH|reflexivity]. Qed.
  Lemma new_wf ni nw new : (forall e w, In (e, w) new -> w < nw /\ Forall (fun t => concrete ni nw (snd t)) e) -> forall nl, well_formed ni nw nl [] (new_calls new).
  Proof.
    intros H. induction new as [|[e w] r IH]; intros nl; [exact I|]. cbn [new_calls map well_formed fst snd]. destruct (H e w (or_introl eq_refl)) as [Hw Ce]. split.
    - apply Forall_app. split; [|constructor; [exact Logic.I|constructor; [exact Hw|constructor]]]. eapply Forall_impl; [|exact Ce]. intros [a []] Ht; cbn in *; auto.
    - apply IH. intros e' w' Hin. apply H. right. exact Hin.
  Qed.
  Lemma new_empty new : instances (new_calls new) = [] /\ witnesses (new_calls new) = [].
  Proof. induction new as [|e r [IH1 IH2]]; split; try reflexivity; [exact IH1|exact IH2]. Qed.
  Lemma new_holds ni nw I W new : (forall e w, In (e, w) new -> Forall (fun t => concrete ni nw (snd t)) e) -> forall L, holds I W L (new_calls new) <-> newok K I W new.
  Proof.
    intros H. unfold newok. induction new as [|[e w] r IH]; intros L; [split; [constructor|intros; exact Logic.I]|]. cbn [new_calls map holds fst snd]. fold (new_calls r).
    rewrite IH by (intros e' w' Hin; apply (H e' w'); right; exact Hin). rewrite Forall_cons_iff. cbn [fst snd].
    rewrite (concrete_value K ni nw I W L [] e (H e w (or_introl eq_refl))). rewrite !value_cons, !value_nil. cbn [fst snd val].
    split; intros [H1 H2]; (split; [|exact H2]).
    - transitivity (1 * nth w W 0 + 0)%fld; [ring|]. rewrite <- H1. ring.
    - rewrite H1. ring.
  Qed.
  Lemma new_extension ni I : forall (new : list (lc K * nat)) W, map snd new = seq (length W) (length new) ->
    (forall e w, In (e, w) new -> Forall (fun t => concrete ni w (snd t)) e) -> exists! E, length E = length new /\ newok K I (W ++ E) new.
  Proof.
    induction new as [|[e w] r IH]; intros W S C.
    - exists []. split; [split; [reflexivity|constructor]|]. intros [|x E] [H _]; [reflexivity|discriminate H].
    - cbn [map length seq snd] in S. injection S as Sw Sr. subst w. set (x := value I W [] e).
      pose proof (C e _ (or_introl eq_refl)) as Ce.
      assert (Vx : forall E, value I (W ++ E) [] e = x).
      { intros E. apply (concrete_prefix K ni (length W)); [exact Ce|]. intros i Hi. apply app_nth1, Hi. }
      destruct (IH (W ++ [x])) as (E & [EL En] & Eu).
      { rewrite app_length. cbn [length]. rewrite Nat.add_1_r. exact Sr. }
      { intros e' w' Hin. apply C. right. exact Hin. }
      rewrite <- app_assoc in En. cbn [app] in En.
      exists (x :: E). split.
      + split; [cbn [length]; lia|]. unfold newok in *. constructor; [|exact En]. cbn [fst snd]. rewrite Vx, app_nth2, Nat.sub_diag by lia. reflexivity.
      + intros [|y E'] [HL Hn]; [discriminate HL|]. inversion_clear Hn as [|? ? H1 H2]. cbn [fst snd] in H1. rewrite Vx, app_nth2, Nat.sub_diag in H1 by lia. cbn [nth] in H1. subst y.
        f_equal. apply Eu. split; [cbn [length] in HL; lia|]. rewrite <- app_assoc. exact H2.
  Qed.

  Lemma lt03 : 0 < 3. Proof. lia. Qed.
  Lemma lt13 : 1 < 3. Proof. lia. Qed.
  Lemma lt23 : 2 < 3. Proof. lia. Qed.
  Lemma bound3 k d n : d < 3 -> k + 3 <= n -> k + d < n. Proof. lia. Qed.
  Theorem finalize_sound (sort : lc K -> lc K) (setup0 construct0 goal : bool) calls : sorts_terms sort -> proper calls -> (setup0 = true \/ construct0 = true) ->
    exists s s' m, synthesize (new_cs setup0 construct0 goal) calls = Some s /\ finalize sort s = Some s' /\ to_matrices s' = Some (Some m) /\ well_shaped m /\
      m_inst m = 1 + length (instances calls) /\ length (witnesses calls) <= m_wit m /\ (goal = false -> m_wit m = length (witnesses calls)) /\
      (forall I W, length I = m_inst m -> nth 0 I 0%fld = 1%fld -> rows_hold m (I ++ W) -> accepts calls I (firstn (length (witnesses calls)) W)) /\
      (forall I W, length I = m_inst m -> nth 0 I 0%fld = 1%fld -> length W = length (witnesses calls) -> accepts calls I W ->
         exists! E, length W + length E = m_wit m /\ rows_hold m (I ++ W ++ E)) /\
      (setup0 = false -> inst s' = 1%fld :: instances calls /\ length (wit s') = m_wit m /\ firstn (length (witnesses calls)) (wit s') = witnesses calls /\
         exists b, is_satisfied s = Some b /\ is_satisfied s' = Some b /\ (b = true <-> accepts calls (1%fld :: instances calls) (witnesses calls)) /\
           (b = true <-> rows_hold m (inst s' ++ wit s'))).
  Proof.
    intros Hsort HP Hmode. set (ni := 1 + length (instances calls)). set (nw := length (witnesses calls)). set (lcs := combinations calls). set (n := length lcs).
    assert (Hc : should_construct (new_cs (K := K) setup0 construct0 goal) = true) by (unfold should_construct, new_cs; cbn; destruct setup0; [reflexivity|]; destruct Hmode as [H|H]; [discriminate H|exact H]).
    destruct (synth_spec K calls (new_cs setup0 construct0 goal) Hc) as (s & Es & S1 & S2 & S3 & S4 & S5 & S6 & S7 & S8 & S9 & S10 & S11 & S12 & S13).
    unfold new_cs in S1, S2, S3, S4, S5, S6, S7, S8, S9, S10, S11, S12, S13. cbn [setup construct goal_weight n_inst n_wit n_con n_lc inst wit lc_map a_con b_con c_con app] in *. rewrite !Nat.add_0_l in *.
    set (V := fun I W => combination_values I W [] calls). set (cons := cons_of K 0 calls) in *.
    assert (refs := proper_refs K calls HP). fold ni nw lcs in refs.
    assert (Vok : forall I W j l, nth_error lcs j = Some l -> nth j (V I W) 0%fld = value I W (V I W) l).
    { intros I W j l E. exact (lcv_ok K I W calls 1 0 [] [] HP (fun i Hi => match Hi with end) j l E). }
    assert (VL : forall I W, length (V I W) = n) by (intros I W; unfold V; rewrite lcv_length; reflexivity).
    assert (Hacc : forall I W, accepts calls I W <-> Forall (fun k => (nth k (V I W) 0 * nth (S k) (V I W) 0)%fld = nth (2 + k) (V I W) 0%fld) cons).
    { intros I W. exact (holds_cons K I W calls 1 0 [] [] HP (fun i Hi => match Hi with end)). }
    assert (PM : setup0 = false -> length (inst s) = ni /\ length (wit s) = nw) by (intros ->; rewrite S8, S9; cbn; split; reflexivity).
    destruct (transform_spec K lcs ni nw V refs Vok sort Hsort goal setup0 (inst s) (wit s) PM) as (used & st & T1 & T2 & T3).
    destruct T3 as ((_ & _ & _ & M1 & M2) & N1 & N2 & N3 & N4 & N5 & N6).
    set (new := t_new st) in *. set (nwt := t_nwit st) in *.
    set (s1 := mk_cs (setup s) (construct s) (goal_weight s) (n_inst s) nwt (n_con s) (n_lc s) (inst s) (t_wit st) (t_map st) (a_con s) (b_con s) (c_con s)).
    assert (Hc1 : should_construct s1 = true) by (unfold should_construct, s1; cbn [setup construct]; rewrite S1, S2; exact Hc).
    destruct (synth_spec K (new_calls new) s1 Hc1) as (s' & Es' & R1 & R2 & R3 & R4 & R5 & R6 & R7 & R8 & R9 & R10 & R11 & R12 & R13).
    destruct (new_empty new) as [NE1 NE2]. rewrite NE1 in R4, R8. rewrite NE2 in R5, R9. unfold s1 in R1, R2, R3, R4, R5, R6, R7, R8, R9, R10, R11, R12, R13.
    cbn [setup construct goal_weight n_inst n_wit n_con n_lc inst wit lc_map a_con b_con c_con length] in *. rewrite !Nat.add_0_r, ?app_nil_r in *.
    assert (Ef : finalize sort s = Some s').
    { unfold finalize. assert (Hcs : should_construct s = true) by (unfold should_construct; rewrite S1, S2; exact Hc). rewrite Hcs, S10. change (combine (seq 0 (length (combinations calls))) (combinations calls)) with (entries K lcs).
      rewrite T1, S3, S1, S5. change (length (witnesses calls)) with nw. rewrite T2, enforce_new_calls. unfold s1 in Es'. rewrite S3, S1 in Es'. exact Es'. }
    rewrite S7 in R6, R7, R10, R11, R12, R13. fold lcs in R6, R7, R10, R11, R12, R13. fold n in R6, R7, R10, R11, R12, R13.
    set (cons2 := cons_of K n (new_calls new)) in *. set (lcs2 := combinations (new_calls new)) in *.
    assert (NewC : forall e w, In (e, w) new -> w < nwt /\ Forall (fun t => concrete ni nwt (snd t)) e).
    { intros e w Hin. assert (Hw : w < nwt). { assert (Hi : In w (map snd new)) by (apply in_map_iff; exists (e, w); auto). rewrite N2 in Hi. apply in_seq in Hi. rewrite N1. exact (proj2 Hi). }
      split; [exact Hw|]. eapply Forall_impl; [|exact (N3 e w Hin)]. intros t. apply concrete_le. apply Nat.lt_le_incl, Hw. }
    assert (wf2 : forall nl, well_formed ni nwt nl [] (new_calls new)) by exact (new_wf ni nwt new NewC).
    set (V2 := fun I W => combination_values I W (V I W) (new_calls new)).
    (* what the map holds *)
    assert (Old : forall k d, In k cons -> d < 3 -> exists e, find_lc (lc_map s') (k + d) = Some e /\ Forall (fun t => concrete ni nwt (snd t)) e /\
      forall I W, newok K I W new -> value I W [] e = nth (k + d) (V I W) 0%fld).
    { intros k d Hk Hd. destruct (cons_users K calls 0) as [_ CU]. destruct (CU k Hk) as (_ & B & _). cbn [Nat.add] in B.
      destruct (M1 (k + d)) as (e & Fe); [apply (bound3 k d _ Hd B)|right; exact (proper_unused K calls k d HP Hk Hd)|].
      destruct (M2 _ _ Fe) as [_ [Ce Ve]]. exists e. split; [rewrite R10, find_app, Fe; reflexivity|]. split; [exact Ce|exact Ve]. }
    assert (New : forall k d, In k cons2 -> d < 3 -> exists e, find_lc (lc_map s') (k + d) = Some e /\ Forall (fun t => concrete ni nwt (snd t)) e /\
      forall I W, value I W [] e = nth (k + d) (V2 I W) 0%fld).
    { intros k d Hk Hd. destruct (cons_users K (new_calls new) n) as [_ CU]. destruct (CU k Hk) as (A & B & _). fold lcs2 in B.
      destruct (nth_error lcs2 (k + d - n)) as [e|] eqn:Ee; [|apply nth_error_None in Ee; clear -Ee A B Hd; lia].
      assert (Ce : Forall (fun t => concrete ni nwt (snd t)) e).
      { pose proof (wf_users K (new_calls new) ni nwt n [] (wf2 n)) as WU. pose proof (wf_refs K (new_calls new) ni nwt n [] (wf2 n) (fun i Hi => match Hi with end) _ _ Ee) as WR.
        rewrite NE1, NE2 in WR. cbn [length] in WR. rewrite !Nat.add_0_r in WR.
        assert (U : forall m nl, users_of K nl (new_calls m) = []) by (induction m as [|x m IHm]; intros nl; [reflexivity|cbn [new_calls map users_of]; apply IHm]). rewrite U in WU.
        apply Forall_forall. intros t Ht. pose proof (proj1 (Forall_forall _ _) WR t Ht) as Wt. cbn beta in Wt.
        pose proof (proj1 (Forall_forall _ _) WU t) as Ut. cbn beta in Ut. destruct (snd t) as [| |i|i|i]; cbn [concrete]; try assumption.
        destruct Ut as [[]|[]]. apply in_concat. exists e. split; [apply (nth_error_In _ _ Ee)|exact Ht]. }
      exists e. split; [|split; [exact Ce|]].
      - rewrite R10, find_app. destruct (find_lc (t_map st) (k + d)) as [y|] eqn:Fy; [destruct (M2 _ _ Fy) as [B2 _]; exfalso; fold n in B2; clear -A B2; lia|].
        replace (k + d) with (n + (k + d - n)) at 1 by (clear -A; lia). rewrite find_combine. exact Ee.
      - intros I W. rewrite (concrete_value K ni nwt I W [] (V2 I W) e Ce).
        pose proof (lcv_ok K I W (new_calls new) ni nwt [] (V I W) (wf2 _) (fun i Hi => match Hi with end) _ _ Ee) as LO. rewrite VL in LO. symmetry.
        replace (n + (k + d - n)) with (k + d) in LO by (clear -A; lia). exact LO. }
    assert (Pres : forall k d, In k (cons ++ cons2) -> d < 3 -> present ni nwt (lc_map s') (k + d)).
    { intros k d Hk Hd. apply in_app_or in Hk. destruct Hk as [Hk|Hk]; [destruct (Old k d Hk Hd) as (e & E1 & E2 & _)|destruct (New k d Hk Hd) as (e & E1 & E2 & _)]; exists e; split; assumption. }
    assert (Hcs' : should_construct s' = true) by (unfold should_construct; rewrite R1, R2, S1, S2; exact Hc).
    assert (Hlen : n_con s' = length (cons ++ cons2)) by (rewrite app_length, R6, S6; reflexivity).
    assert (Hni' : n_inst s' = ni) by (rewrite R4, S4; reflexivity).
    rewrite S11 in R11. rewrite S12 in R12. rewrite S13 in R13. rewrite <- map_app in R12, R13.
    destruct (matrices_spec ni nwt s' (cons ++ cons2) Hcs' Hni' Hlen R11 R12 R13 Pres) as (m & Em & m1 & m2 & m3 & mw & m4).
    (* the rows *)
    assert (Vlook : forall I W, newok K I W new -> forall k d, In k cons -> d < 3 -> value I W [] (look (lc_map s') (k + d)) = nth (k + d) (V I W) 0%fld).
    { intros I W Hn k d Hk Hd. destruct (Old k d Hk Hd) as (e & E1 & _ & E3). unfold look. rewrite E1. exact (E3 I W Hn). }
    assert (Rows : forall I W, Forall (row_ok I W (lc_map s')) (cons ++ cons2) <-> newok K I W new /\ accepts calls I W).
    { intros I W. rewrite Forall_app.
      assert (X2 : Forall (row_ok I W (lc_map s')) cons2 <-> newok K I W new).
      { rewrite <- (new_holds ni nwt I W new (fun e w Hin => proj2 (NewC e w Hin)) (V I W)).
        rewrite (holds_cons K I W (new_calls new) ni nwt [] (V I W) (wf2 _) (fun i Hi => match Hi with end)). rewrite VL. fold cons2. cbn zeta.
        assert (Y : forall k, In k cons2 -> row_ok I W (lc_map s') k <-> (nth k (V2 I W) 0 * nth (S k) (V2 I W) 0)%fld = nth (2 + k) (V2 I W) 0%fld).
        { intros k Hk. unfold row_ok. destruct (New k 0 Hk lt03) as (e0 & F0 & _ & G0). destruct (New k 1 Hk lt13) as (e1 & F1 & _ & G1). destruct (New k 2 Hk lt23) as (e2 & F2 & _ & G2).
          rewrite Nat.add_0_r in F0, G0. rewrite Nat.add_1_r in F1, G1. rewrite (Nat.add_comm k 2) in F2, G2. unfold look. rewrite F0, F1, F2, G0, G1, G2. reflexivity. }
        rewrite !Forall_forall. split; intros H k Hk; apply (Y k Hk); exact (H k Hk). }
      rewrite X2, (and_comm (Forall _ cons)). split; intros [Hn H]; (split; [exact Hn|]).
      - apply Hacc. rewrite Forall_forall in *. intros k Hk. pose proof (H k Hk) as Hr. unfold row_ok in Hr.
        pose proof (Vlook I W Hn k 0 Hk lt03) as Q0. pose proof (Vlook I W Hn k 1 Hk lt13) as Q1. pose proof (Vlook I W Hn k 2 Hk lt23) as Q2.
        rewrite Nat.add_0_r in Q0. rewrite Nat.add_1_r in Q1. rewrite (Nat.add_comm k 2) in Q2. rewrite <- Q0, <- Q1, <- Q2. exact Hr.
      - apply Hacc in H. rewrite Forall_forall in *. intros k Hk. unfold row_ok.
        pose proof (Vlook I W Hn k 0 Hk lt03) as Q0. pose proof (Vlook I W Hn k 1 Hk lt13) as Q1. pose proof (Vlook I W Hn k 2 Hk lt23) as Q2.
        rewrite Nat.add_0_r in Q0. rewrite Nat.add_1_r in Q1. rewrite (Nat.add_comm k 2) in Q2. rewrite Q0, Q1, Q2. exact (H k Hk). }
    assert (AccW : forall I W W', (forall i, i < nw -> nth i W 0%fld = nth i W' 0%fld) -> accepts calls I W <-> accepts calls I W').
    { intros I W W' H. exact (holds_wit I W W' calls 1 0 0 [] [] HP H). }
    exists s, s', m. split; [exact Es|]. split; [exact Ef|]. split; [exact Em|]. split; [apply mw; [unfold ni; apply Nat.lt_0_succ|rewrite R5; apply le_n]|]. split; [exact m1|]. rewrite m2, R5. split; [rewrite N1; apply Nat.le_add_r|]. split; [intros G; rewrite N1, (N6 G); apply Nat.add_0_r|]. split; [|split].
    - intros I W HI H0 HR. rewrite m1 in HI. apply (m4 I W HI H0) in HR. apply Rows in HR. destruct HR as [_ HR]. apply (AccW I _ W); [|exact HR].
      intros i Hi. rewrite <- (firstn_skipn nw W) at 2. destruct (Nat.lt_ge_cases i (length (firstn nw W))) as [Hl|Hl]; [rewrite app_nth1 by exact Hl; reflexivity|].
      rewrite (nth_overflow (firstn nw W)) by exact Hl. rewrite firstn_length in Hl. rewrite firstn_skipn. symmetry. apply nth_overflow. clear -Hl Hi; lia.
    - intros I W HI H0 HW HA. rewrite m1 in HI. destruct (new_extension ni I new W) as (E & [EL En] & Eu); [rewrite HW; exact N2|exact N3|].
      assert (AccE : forall E, accepts calls I (W ++ E)). { intros E0. apply (AccW I (W ++ E0) W); [|exact HA]. intros i Hi. apply app_nth1. rewrite HW. exact Hi. }
      exists E. split.
      + split; [rewrite HW, EL, N1; reflexivity|]. apply (m4 I (W ++ E) HI H0). apply Rows. split; [exact En|apply AccE].
      + intros E' [HL' HR']. apply Eu. split; [rewrite HW, N1 in HL'; exact (proj1 (Nat.add_cancel_l _ _ _) HL')|]. apply (m4 I (W ++ E') HI H0) in HR'. apply Rows in HR'. exact (proj1 HR').
    - intros Hset. destruct (PM Hset) as [P1 P2]. destruct (N4 Hset) as (ext & X1 & X2 & X3). rewrite Hset in S1, S8, S9. rewrite S1 in R8, R9.
      assert (Hins : inst s' = 1%fld :: instances calls) by (rewrite R8, S8; reflexivity).
      assert (Hwit : wit s' = witnesses calls ++ ext) by (rewrite R9, X1, S9; reflexivity).
      split; [exact Hins|]. split; [rewrite R9, X1, app_length, P2, X2, N1; reflexivity|]. split; [rewrite Hwit, firstn_app, Nat.sub_diag, firstn_O, app_nil_r; apply firstn_all|].
      assert (Hx : newok K (inst s') (wit s') new) by (rewrite R8, R9; exact X3).
      (* before *)
      destruct (check_spec s cons (fun k => nth k (V (inst s) (wit s)) 0%fld)) as (b & Eb & Hb); [exact S6|exact S11|exact S12|exact S13| |exact S1|].
      { intros k d Hk Hd. destruct (cons_users K calls 0) as [_ CU]. destruct (CU k Hk) as (_ & B & _). cbn [Nat.add] in B. unfold eval_index. rewrite S7, S10.
        apply (assigned_spec ni nw (inst s) (wit s) (V (inst s) (wit s)) lcs P1 P2 refs (Vok (inst s) (wit s))); [apply Nat.lt_lt_succ_r; exact (bound3 k d _ Hd B)|exact (bound3 k d _ Hd B)]. }
      (* after *)
      destruct (check_spec s' (cons ++ cons2) (fun k => value (inst s') (wit s') [] (look (lc_map s') k))) as (b' & Eb' & Hb'); [exact Hlen|exact R11|exact R12|exact R13| |rewrite R1, S1; reflexivity|].
      { intros k d Hk Hd. destruct (Pres k d Hk Hd) as (e & Fe & Ce). unfold eval_index. cbn [assigned]. rewrite Fe. unfold look. rewrite Fe.
        rewrite (fold_concrete K ni (n_lc s') (inst s') (wit s') (lc_map s') nwt e Ce); [f_equal; ring| |]; [rewrite R8, P1; apply le_n|rewrite R9, X1, app_length, P2, X2, N1; apply le_n]. }
      assert (B1 : b = true <-> accepts calls (1%fld :: instances calls) (witnesses calls)).
      { rewrite Hb, <- Hacc. rewrite S8, S9. reflexivity. }
      assert (B2 : b' = true <-> accepts calls (1%fld :: instances calls) (witnesses calls)).
      { rewrite Hb'. change (Forall (row_ok (inst s') (wit s') (lc_map s')) (cons ++ cons2) <-> accepts calls (1%fld :: instances calls) (witnesses calls)). rewrite Rows, Hins in *.
        rewrite (AccW _ (wit s') (witnesses calls)); [tauto|]. intros i Hi. rewrite Hwit. apply app_nth1. exact Hi. }
      assert (b' = b) as -> by (destruct b, b'; try reflexivity; destruct B1, B2; intuition discriminate).
      exists b. split; [exact Eb|]. split; [exact Eb'|]. split; [exact B1|].
      rewrite Hb'. rewrite (m4 (inst s') (wit s')); [reflexivity|rewrite R8; exact P1|rewrite Hins; reflexivity].
  Qed.
End End2End.

Theorem finalize_matrices : forall (K : fld) (sort : lc K -> lc K) (setup construct goal : bool) (calls : circuit K),
  sorts_terms sort -> proper calls -> setup = true \/ construct = true ->
  exists s s' m, synthesize (new_cs setup construct goal) calls = Some s /\ finalize sort s = Some s' /\ to_matrices s' = Some (Some m) /\ well_shaped m /\
    m_inst m = 1 + length (instances calls) /\ length (witnesses calls) <= m_wit m /\ (goal = false -> m_wit m = length (witnesses calls)) /\
    (forall I W, length I = m_inst m -> nth 0 I 0%fld = 1%fld -> rows_hold m (I ++ W) -> accepts calls I (firstn (length (witnesses calls)) W)) /\
    (forall I W, length I = m_inst m -> nth 0 I 0%fld = 1%fld -> length W = length (witnesses calls) -> accepts calls I W ->
       exists! E, length W + length E = m_wit m /\ rows_hold m (I ++ W ++ E)).
Proof.
  intros K sort setup construct goal calls HS HP HM. destruct (finalize_sound K sort setup construct goal calls HS HP HM) as (s & s' & m & H1 & H2 & H3 & Hw & H4 & H5 & H6 & H7 & H8 & _).
  exists s, s', m. exact (conj H1 (conj H2 (conj H3 (conj Hw (conj H4 (conj H5 (conj H6 (conj H7 H8)))))))).
Qed.
Theorem finalize_prove_mode : forall (K : fld) (sort : lc K -> lc K) (goal : bool) (calls : circuit K), sorts_terms sort -> proper calls ->
  exists s s' m, synthesize (new_cs false true goal) calls = Some s /\ finalize sort s = Some s' /\ to_matrices s' = Some (Some m) /\ well_shaped m /\
    inst s' = 1%fld :: instances calls /\ length (wit s') = m_wit m /\ firstn (length (witnesses calls)) (wit s') = witnesses calls /\
    exists b, is_satisfied s = Some b /\ is_satisfied s' = Some b /\ (b = true <-> accepts calls (1%fld :: instances calls) (witnesses calls)) /\
      (b = true <-> rows_hold m (inst s' ++ wit s')).
Proof.
  intros K sort goal calls HS HP. destruct (finalize_sound K sort false true goal calls HS HP (or_intror eq_refl)) as (s & s' & m & H1 & H2 & H3 & Hw & _ & _ & _ & _ & _ & H9).
  exists s, s', m. exact (conj H1 (conj H2 (conj H3 (conj Hw (H9 eq_refl))))).
Qed.
