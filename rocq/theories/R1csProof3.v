(** Synthesis, Finalize, ToMatrices and IsSatisfied mean what the circuit means. *)
From Coq Require Import List Bool Arith Lia Permutation Sorted Ring Field Field_theory.
From Verif Require Import Field R1csModel R1csSpec R1csProof R1csProof2.
Import ListNotations.
Open Scope fld_scope.
Open Scope nat_scope.

Section Whole.
  Variable K : fld.
  Add Field Kr3 : (fld_theory K).
  Implicit Types (l : lc K) (calls : circuit K) (I W L : list K).

  (** The linear combinations a circuit creates, those it can name, and the first of the three of each constraint. *)
  Fixpoint cons_of (nl : nat) calls : list nat :=
    match calls with [] => [] | NewLc l :: r => cons_of (S nl) r | Enforce a b c :: r => nl :: cons_of (3 + nl) r | _ :: r => cons_of nl r end.
  Fixpoint users_of (nl : nat) calls : list nat :=
    match calls with [] => [] | NewLc l :: r => nl :: users_of (S nl) r | Enforce a b c :: r => users_of (3 + nl) r | _ :: r => users_of nl r end.

  Lemma lcs_app (a b : circuit K) : combinations (a ++ b) = combinations a ++ combinations b.
  Proof. induction a as [|[v|v|l|x y z] a IH]; cbn [combinations app]; rewrite ?IH; reflexivity. Qed.
  Lemma cons_app (a : circuit K) : forall nl b, cons_of nl (a ++ b) = cons_of nl a ++ cons_of (nl + length (combinations a)) b.
  Proof.
    induction a as [|[v|v|l|x y z] a IH]; intros nl b; cbn [cons_of combinations app length]; rewrite ?IH, ?Nat.add_0_r; try reflexivity.
    - do 2 f_equal. lia.
    - do 3 f_equal. lia.
  Qed.
  Lemma lcv_length I W calls : forall L, length (combination_values I W L calls) = length L + length (combinations calls).
  Proof. induction calls as [|[v|v|l|x y z] r IH]; intros L; cbn [combination_values combinations length]; rewrite ?IH, ?app_length; cbn [length]; lia. Qed.
  Lemma lcv_prefix I W calls : forall L, exists R, combination_values I W L calls = L ++ R.
  Proof.
    induction calls as [|[v|v|l|x y z] r IH]; intros L; cbn [combination_values]; [exists []; rewrite app_nil_r; reflexivity|apply IH|apply IH| |].
    - destruct (IH (L ++ [value I W L l])) as [R ->]. rewrite <- app_assoc. eexists. reflexivity.
    - destruct (IH (L ++ [value I W L x; value I W L y; value I W L z])) as [R ->]. rewrite <- app_assoc. eexists. reflexivity.
  Qed.
  Lemma lcv_nth I W calls L i : i < length L -> nth i (combination_values I W L calls) 0%fld = nth i L 0%fld.
  Proof. intros H. destruct (lcv_prefix I W calls L) as [R ->]. apply app_nth1, H. Qed.

  Definition enforced (s : cs K) a b c : cs K :=
    mk_cs (setup s) (construct s) (goal_weight s) (n_inst s) (n_wit s) (S (n_con s)) (3 + n_lc s) (inst s) (wit s)
      (lc_map s ++ [(n_lc s, a); (S (n_lc s), b); (2 + n_lc s, c)]) (a_con s ++ [n_lc s]) (b_con s ++ [S (n_lc s)]) (c_con s ++ [2 + n_lc s]).
  Lemma enforce_ok (s : cs K) a b c : should_construct s = true -> enforce s a b c = Some (enforced s a b c).
  Proof. intros H. unfold enforce, enforced. rewrite H. cbn -[app]. rewrite <- !app_assoc. reflexivity. Qed.
  Lemma synth_spec calls : forall s : cs K, should_construct s = true -> exists s', synthesize s calls = Some s' /\
    setup s' = setup s /\ construct s' = construct s /\ goal_weight s' = goal_weight s /\
    n_inst s' = n_inst s + length (instances calls) /\ n_wit s' = n_wit s + length (witnesses calls) /\
    n_con s' = n_con s + length (cons_of (n_lc s) calls) /\ n_lc s' = n_lc s + length (combinations calls) /\
    inst s' = (if setup s then inst s else inst s ++ instances calls) /\ wit s' = (if setup s then wit s else wit s ++ witnesses calls) /\
    lc_map s' = lc_map s ++ combine (seq (n_lc s) (length (combinations calls))) (combinations calls) /\
    a_con s' = a_con s ++ cons_of (n_lc s) calls /\ b_con s' = b_con s ++ map S (cons_of (n_lc s) calls) /\ c_con s' = c_con s ++ map (Nat.add 2) (cons_of (n_lc s) calls).
  Proof.
    induction calls as [|[v|v|l|x y z] r IH]; intros s Hs; cbn [synthesize].
    - exists s. cbn. rewrite !app_nil_r, !Nat.add_0_r. repeat split; destruct (setup s); reflexivity.
    - destruct (IH (fst (create_instance s v)) Hs) as (s' & H). exists s'. cbn in H |- *. fold (instances r) (witnesses r). destruct (setup s);
      repeat match goal with H : _ /\ _ |- _ => destruct H end; rewrite <- ?app_assoc in *; cbn [app] in *; repeat split; try congruence; lia.
    - destruct (IH (fst (create_witness s v)) Hs) as (s' & H). exists s'. cbn in H |- *. fold (instances r) (witnesses r). destruct (setup s);
      repeat match goal with H : _ /\ _ |- _ => destruct H end; rewrite <- ?app_assoc in *; cbn [app] in *; repeat split; try congruence; lia.
    - destruct (IH (fst (create_lc s l)) Hs) as (s' & H). exists s'. cbn in H |- *. fold (instances r) (witnesses r).
      repeat match goal with H : _ /\ _ |- _ => destruct H end. rewrite <- app_assoc in *. cbn [app] in *. repeat split; try congruence; try lia.
    - rewrite (enforce_ok s x y z Hs).
      destruct (IH (enforced s x y z) Hs) as (s' & H). exists s'. unfold enforced in H |- *.
      cbn in H |- *. fold (instances r) (witnesses r).
      repeat match goal with H : _ /\ _ |- _ => destruct H end. repeat rewrite <- app_assoc in *. cbn [app] in *. repeat split; try congruence; try lia.
  Qed.

  (** References. *)
  Lemma wf_refs calls : forall ni nw nl user, well_formed ni nw nl user calls -> (forall i, In i user -> i < nl) ->
    forall j l, nth_error (combinations calls) j = Some l ->
    Forall (fun t => match snd t with VZero => False | VOne => True | VInst i => i < ni + length (instances calls) | VWit i => i < nw + length (witnesses calls) | VLc i => i < nl + j end) l.
  Proof.
    assert (weak : forall ni nw nl user l ni' nw' nl', Forall (fun t => known ni nw user (snd t)) l -> (forall i, In i user -> i < nl) -> ni <= ni' -> nw <= nw' -> nl <= nl' ->
      Forall (fun t => match snd t with VZero => False | VOne => True | VInst i => i < ni' | VWit i => i < nw' | VLc i => i < nl' end) l).
    { intros ni nw nl user l ni' nw' nl' F U H1 H2 H3. apply Forall_forall. intros t Ht. pose proof (proj1 (Forall_forall _ _) F t Ht) as Hk. cbn beta in Hk.
      destruct (snd t); cbn [known] in Hk; auto; try lia. apply U in Hk. lia. }
    induction calls as [|[v|v|l0|x y z] r IH]; intros ni nw nl user WF U j l E; cbn [combinations well_formed] in *.
    - destruct j; discriminate E.
    - change (instances (NewInstance v :: r)) with (v :: instances r). change (witnesses (NewInstance v :: r)) with (witnesses r). cbn [length].
      rewrite <- Nat.add_succ_comm. exact (IH (S ni) nw nl user WF U j l E).
    - change (instances (NewWitness v :: r)) with (instances r). change (witnesses (NewWitness v :: r)) with (v :: witnesses r). cbn [length].
      rewrite <- (Nat.add_succ_comm nw). exact (IH ni (S nw) nl user WF U j l E).
    - change (instances (NewLc l0 :: r)) with (instances r). change (witnesses (NewLc l0 :: r)) with (witnesses r). destruct WF as [F WF].
      destruct j as [|j]; [injection E as <-; apply (weak ni nw nl user); [exact F|exact U|lia..]|].
      rewrite <- (Nat.add_succ_comm nl). apply (IH ni nw (S nl) (nl :: user) WF); [|exact E]. intros i [<-|Hi]; [lia|]. apply U in Hi. lia.
    - change (instances (Enforce x y z :: r)) with (instances r). change (witnesses (Enforce x y z :: r)) with (witnesses r). destruct WF as [F WF].
      apply Forall_app in F. destruct F as [Fx F]. apply Forall_app in F. destruct F as [Fy Fz].
      destruct j as [|[|[|j]]]; [injection E as <-; apply (weak ni nw nl user); [assumption|exact U|lia..]|injection E as <-; apply (weak ni nw nl user); [assumption|exact U|lia..]|
        injection E as <-; apply (weak ni nw nl user); [assumption|exact U|lia..]|].
      replace (nl + S (S (S j))) with (3 + nl + j) by lia. apply (IH ni nw (3 + nl) user WF); [|exact E]. intros i Hi. apply U in Hi. lia.
  Qed.
  Lemma cnt_not_in (P : nat -> Prop) j l : Forall (fun t : term K => match snd t with VLc i => P i | _ => True end) l -> ~ P j -> cnt K j l = 0.
  Proof.
    intros F N. induction F as [|t l H F IH]; [reflexivity|]. cbn [cnt]. rewrite IH. destruct (snd t) as [| |i|i|i]; try reflexivity.
    destruct (Nat.eqb_spec i j) as [->|]; [contradiction|reflexivity].
  Qed.
  Lemma wf_users calls : forall ni nw nl user, well_formed ni nw nl user calls ->
    Forall (fun t => match snd t with VLc i => In i user \/ In i (users_of nl calls) | _ => True end) (concat (combinations calls)).
  Proof.
    assert (weak : forall ni nw user (P : nat -> Prop) l, Forall (fun t : term K => known ni nw user (snd t)) l -> (forall i, In i user -> P i) ->
      Forall (fun t : term K => match snd t with VLc i => P i | _ => True end) l).
    { intros ni nw user P l F H. apply Forall_forall. intros t Ht. pose proof (proj1 (Forall_forall _ _) F t Ht) as Hk. cbn beta in Hk. destruct (snd t); auto. }
    assert (imp : forall (P Q : nat -> Prop) l, (forall i, P i -> Q i) -> Forall (fun t : term K => match snd t with VLc i => P i | _ => True end) l ->
      Forall (fun t : term K => match snd t with VLc i => Q i | _ => True end) l).
    { intros P Q l H F. apply Forall_forall. intros t Ht. pose proof (proj1 (Forall_forall _ _) F t Ht) as Hk. cbn beta in Hk. destruct (snd t); auto. }
    induction calls as [|[v|v|l0|x y z] r IH]; intros ni nw nl user WF; cbn [combinations well_formed concat users_of] in *.
    - constructor.
    - exact (IH _ _ _ _ WF).
    - exact (IH _ _ _ _ WF).
    - destruct WF as [F WF]. apply Forall_app. split; [apply (weak ni nw user _ _ F); tauto|]. apply (imp (fun i => In i (nl :: user) \/ In i (users_of (S nl) r))); [cbn; tauto|exact (IH _ _ _ _ WF)].
    - destruct WF as [F WF]. rewrite !app_assoc. apply Forall_app. split; [rewrite <- app_assoc; apply (weak ni nw user _ _ F); tauto|exact (IH _ _ _ _ WF)].
  Qed.
  Lemma cons_users calls : forall nl, (forall i, In i (users_of nl calls) -> nl <= i) /\
    forall k, In k (cons_of nl calls) -> nl <= k /\ k + 3 <= nl + length (combinations calls) /\ forall d, d < 3 -> ~ In (k + d) (users_of nl calls).
  Proof.
    induction calls as [|[v|v|l0|x y z] r IH]; intros nl; cbn [users_of cons_of combinations length].
    - split; intros i [].
    - apply IH.
    - apply IH.
    - destruct (IH (S nl)) as [H1 H2]. split; [intros i [<-|Hi]; [lia|apply H1 in Hi; lia]|]. intros k Hk. destruct (H2 k Hk) as (A & B & C).
      split; [lia|]. split; [lia|]. intros d Hd [E|E]; [lia|exact (C d Hd E)].
    - destruct (IH (3 + nl)) as [H1 H2]. split; [intros i Hi; apply H1 in Hi; lia|]. intros k [<-|Hk].
      + split; [lia|]. split; [lia|]. intros d Hd Hi. apply H1 in Hi. lia.
      + destruct (H2 k Hk) as (A & B & C). split; [lia|]. split; [lia|exact C].
  Qed.
  Lemma proper_refs calls : proper calls -> forall j l, nth_error (combinations calls) j = Some l ->
    Forall (fun t => match snd t with VZero => False | VOne => True | VInst i => i < 1 + length (instances calls) | VWit i => i < length (witnesses calls) | VLc i => i < j end) l.
  Proof. intros H j l E. exact (wf_refs calls 1 0 0 [] H (fun i Hi => match Hi with end) j l E). Qed.
  Lemma proper_unused calls k d : proper calls -> In k (cons_of 0 calls) -> d < 3 -> cnt K (k + d) (concat (combinations calls)) = 0.
  Proof.
    intros H Hk Hd. apply (cnt_not_in (fun i => In i [] \/ In i (users_of 0 calls))); [exact (wf_users calls 1 0 0 [] H)|].
    intros [[]|E]. destruct (cons_users calls 0) as [_ C]. destruct (C k Hk) as (_ & _ & N). exact (N d Hd E).
  Qed.

  (** Values of the linear combinations. *)
  Lemma value_extend I W L L' l : (forall i, In (VLc i) (map snd l) -> nth i L 0%fld = nth i L' 0%fld) -> value I W L l = value I W L' l.
  Proof.
    induction l as [|t l IH]; intros H; [reflexivity|]. rewrite !value_cons, IH by (intros i Hi; apply H; right; exact Hi). f_equal. f_equal.
    destruct (snd t) as [| |i|i|i] eqn:E; try reflexivity. cbn [val]. apply H. left. exact E.
  Qed.
  Lemma lcv_ok I W calls : forall ni nw user L, well_formed ni nw (length L) user calls -> (forall i, In i user -> i < length L) ->
    forall j l, nth_error (combinations calls) j = Some l -> nth (length L + j) (combination_values I W L calls) 0%fld = value I W (combination_values I W L calls) l.
  Proof.
    assert (one : forall ni nw user L l V, Forall (fun t => known ni nw user (snd t)) l -> (forall i, In i user -> i < length L) ->
      (forall i, i < length L -> nth i V 0%fld = nth i L 0%fld) -> value I W L l = value I W V l).
    { intros ni nw user L l V B U H. apply value_extend. intros i Hi. symmetry. apply H. apply in_map_iff in Hi. destruct Hi as (t & E & Ht).
      pose proof (proj1 (Forall_forall _ _) B t Ht) as Hb. cbn beta in Hb. rewrite E in Hb. apply U. exact Hb. }
    induction calls as [|[v|v|l0|x y z] r IH]; intros ni nw user L WF U j l E; cbn [combinations combination_values well_formed] in *.
    - destruct j; discriminate E.
    - exact (IH _ _ _ L WF U j l E).
    - exact (IH _ _ _ L WF U j l E).
    - destruct WF as [F WF]. destruct j as [|j].
      + injection E as <-. rewrite Nat.add_0_r, lcv_nth by (rewrite app_length; cbn [length]; lia). rewrite app_nth2, Nat.sub_diag by lia. cbn [nth].
        apply (one ni nw user); [exact F|exact U|]. intros i Hi. rewrite lcv_nth by (rewrite app_length; cbn [length]; lia). apply app_nth1, Hi.
      + specialize (IH ni nw (length L :: user) (L ++ [value I W L l0])). rewrite app_length in IH. cbn [length] in IH. rewrite Nat.add_1_r in IH.
        replace (length L + S j) with (S (length L) + j) by lia. apply IH; [exact WF| |exact E]. intros i [<-|Hi]; [lia|]. apply U in Hi. lia.
    - destruct WF as [F WF]. apply Forall_app in F. destruct F as [Fx F]. apply Forall_app in F. destruct F as [Fy Fz].
      set (L3 := L ++ [value I W L x; value I W L y; value I W L z]). assert (H3 : length L3 = 3 + length L) by (unfold L3; rewrite app_length; cbn [length]; lia).
      assert (pre : forall i, i < length L -> nth i (combination_values I W L3 r) 0%fld = nth i L 0%fld) by (intros i Hi; rewrite lcv_nth by lia; unfold L3; apply app_nth1, Hi).
      assert (zero : forall d, d < 3 -> nth (length L + d) (combination_values I W L3 r) 0%fld = nth d [value I W L x; value I W L y; value I W L z] 0%fld).
      { intros d Hd. rewrite lcv_nth by lia. unfold L3. apply app_nth2_plus. }
      destruct j as [|[|[|j]]].
      + rewrite zero by lia. injection E as <-. exact (one _ _ _ _ _ _ Fx U pre).
      + rewrite zero by lia. injection E as <-. exact (one _ _ _ _ _ _ Fy U pre).
      + rewrite zero by lia. injection E as <-. exact (one _ _ _ _ _ _ Fz U pre).
      + specialize (IH ni nw user L3). rewrite H3 in IH. replace (length L + S (S (S j))) with (3 + length L + j) by lia. apply IH; [exact WF| |exact E]. intros i Hi. apply U in Hi. lia.
  Qed.
  Lemma holds_cons I W calls : forall ni nw user L, well_formed ni nw (length L) user calls -> (forall i, In i user -> i < length L) ->
    holds I W L calls <-> let V := combination_values I W L calls in Forall (fun k => (nth k V 0 * nth (S k) V 0)%fld = nth (2 + k) V 0%fld) (cons_of (length L) calls).
  Proof.
    cbn zeta. induction calls as [|[v|v|l0|x y z] r IH]; intros ni nw user L WF U; cbn [holds combination_values cons_of well_formed] in *.
    - split; [constructor|trivial].
    - exact (IH _ _ _ L WF U).
    - exact (IH _ _ _ L WF U).
    - destruct WF as [F WF]. specialize (IH ni nw (length L :: user) (L ++ [value I W L l0])). rewrite app_length in IH. cbn [length] in IH. rewrite Nat.add_1_r in IH.
      apply IH; [exact WF|]. intros i [<-|Hi]; [lia|]. apply U in Hi. lia.
    - destruct WF as [F WF]. specialize (IH ni nw user (L ++ [value I W L x; value I W L y; value I W L z])). rewrite app_length in IH. cbn [length] in IH. rewrite (Nat.add_comm (length L)) in IH.
      rewrite IH; [|exact WF|intros i Hi; apply U in Hi; lia].
      set (L3 := L ++ [value I W L x; value I W L y; value I W L z]). assert (H3 : length L3 = 3 + length L) by (unfold L3; rewrite app_length; cbn [length]; lia).
      assert (zero : forall d, d < 3 -> nth (length L + d) (combination_values I W L3 r) 0%fld = nth d [value I W L x; value I W L y; value I W L z] 0%fld).
      { intros d Hd. rewrite lcv_nth by lia. unfold L3. apply app_nth2_plus. }
      pose proof (zero 0 ltac:(lia)) as Z0. pose proof (zero 1 ltac:(lia)) as Z1. pose proof (zero 2 ltac:(lia)) as Z2. cbn [nth] in Z0, Z1, Z2.
      rewrite Nat.add_0_r in Z0. rewrite Nat.add_1_r in Z1. rewrite (Nat.add_comm _ 2) in Z2.
      rewrite Forall_cons_iff. rewrite Z0, Z1, Z2. tauto.
  Qed.
End Whole.
