(** The cache of assigned values never changes a value. *)
From Coq Require Import List Bool Arith Lia Permutation Sorted Ring Field Field_theory.
From Verif Require Import Field R1csModel R1csSpec R1csProof R1csProof2 R1csProof3 R1csProof4.
Import ListNotations.
Open Scope fld_scope.
Open Scope nat_scope.

Section Cache.
  Variable K : fld.
  Add Field Kr5 : (fld_theory K).
  Implicit Types (l : lc K) (calls : circuit K) (I W L : list K).

  Definition faithful (n : nat) (V : list K) (c : cache_t) : Prop := forall j x, find_value c j = Some x -> j < n /\ x = nth j V 0%fld.
  Lemma cached_spec ni nw I W (V : list K) (lcs : list (lc K)) : length I = ni -> length W = nw ->
    (forall j l, nth_error lcs j = Some l -> Forall (fun t => match snd t with VZero => False | VOne => True | VInst i => i < ni | VWit i => i < nw | VLc i => i < j end) l) ->
    (forall j l, nth_error lcs j = Some l -> nth j V 0%fld = value I W V l) ->
    forall f j c, j < f -> j < length lcs -> faithful (length lcs) V c ->
      exists c', cached f I W (combine (seq 0 (length lcs)) lcs) c (VLc j) = Some (nth j V 0%fld, c') /\ faithful (length lcs) V c'.
  Proof.
    intros HI HW R Vok. induction f as [|f IH]; intros j c Hf Hj Hc; [lia|]. cbn [cached].
    destruct (find_value c j) as [x|] eqn:Fv; [destruct (Hc j x Fv) as [_ ->]; exists c; split; [reflexivity|exact Hc]|].
    change j with (0 + j) at 1. rewrite find_combine.
    destruct (nth_error lcs j) as [l|] eqn:E; [|apply nth_error_None in E; lia]. pose proof (Vok j l E) as Vj.
    pose proof (R j l E) as Rl. clear E.
    set (step := fun (acc : option (K * cache_t)) (t : term K) => match acc with
       | Some (a, c') => match cached f I W (combine (seq 0 (length lcs)) lcs) c' (snd t) with Some (x, c'') => Some ((a + fst t * x)%fld, c'') | None => None end
       | None => None end).
    assert (G : forall a c, faithful (length lcs) V c -> exists c', fold_left step l (Some (a, c)) = Some ((a + value I W V l)%fld, c') /\ faithful (length lcs) V c').
    { clear Vj Fv. induction Rl as [|t l Ht F IHl]; intros a c0 Hc0; cbn [fold_left]; [exists c0; split; [rewrite value_nil; do 2 f_equal; ring|exact Hc0]|].
      assert (A : exists c', cached f I W (combine (seq 0 (length lcs)) lcs) c0 (snd t) = Some (val I W V (snd t), c') /\ faithful (length lcs) V c').
      { destruct (snd t) as [| |i|i|i]; [contradiction| | | |apply IH; [lia|lia|exact Hc0]]; exists c0; (split; [|exact Hc0]); destruct f; cbn [cached val]; try reflexivity.
        - rewrite (nth_error_nth' I 0%fld) by lia. reflexivity.
        - rewrite (nth_error_nth' I 0%fld) by lia. reflexivity.
        - rewrite (nth_error_nth' W 0%fld) by lia. reflexivity.
        - rewrite (nth_error_nth' W 0%fld) by lia. reflexivity. }
      destruct A as (c1 & A1 & A2). assert (St : step (Some (a, c0)) t = Some ((a + fst t * val I W V (snd t))%fld, c1)) by (unfold step; rewrite A1; reflexivity). rewrite St. destruct (IHl (a + fst t * val I W V (snd t))%fld c1 A2) as (c2 & B1 & B2).
      exists c2. split; [|exact B2]. rewrite B1, value_cons. do 2 f_equal. ring. }
    destruct (G 0%fld c Hc) as (c' & G1 & G2). change (fold_left _ l (Some (0%fld, c))) with (fold_left step l (Some (0%fld, c))). rewrite G1. exists ((j, nth j V 0%fld) :: c'). split.
    - rewrite Vj. replace (0 + value I W V l)%fld with (value I W V l) by ring. reflexivity.
    - intros k x. cbn [find_value]. destruct (Nat.eqb_spec j k) as [<-|Ne]; [intros [= <-]; split; [exact Hj|reflexivity]|apply G2].
  Qed.

  Lemma wf_app a : forall ni nw nl user (b : circuit K), well_formed ni nw nl user (a ++ b) -> well_formed ni nw nl user a.
  Proof.
    induction a as [|[v|v|l|x y z] a IH]; intros ni nw nl user b; cbn [app well_formed]; try (intros; exact Logic.I); [apply IH|apply IH| |]; intros [H1 H2]; (split; [exact H1|exact (IH _ _ _ _ _ H2)]).
  Qed.
  Lemma values_app I W a : forall L (b : circuit K), combination_values I W L (a ++ b) = combination_values I W (combination_values I W L a) b.
  Proof. induction a as [|[v|v|l|x y z] a IH]; intros L b; cbn [app combination_values]; rewrite ?IH; reflexivity. Qed.
  Lemma value_known ni nw user I W I' W' L l : Forall (fun t => known ni nw user (snd t)) l -> (forall i, i < ni -> nth i I 0%fld = nth i I' 0%fld) ->
    (forall i, i < nw -> nth i W 0%fld = nth i W' 0%fld) -> value I W L l = value I' W' L l.
  Proof.
    intros F HI HW. induction F as [|t l Ht F IH]; [reflexivity|]. rewrite !value_cons, IH. f_equal. f_equal. destruct (snd t) as [| |i|i|i]; try reflexivity; cbn [val known] in *; auto.
  Qed.
  Lemma values_known I W I' W' calls : forall ni nw nl user L, well_formed ni nw nl user calls ->
    (forall i, i < ni + length (instances calls) -> nth i I 0%fld = nth i I' 0%fld) -> (forall i, i < nw + length (witnesses calls) -> nth i W 0%fld = nth i W' 0%fld) ->
    combination_values I W L calls = combination_values I' W' L calls.
  Proof.
    induction calls as [|[v|v|l|x y z] r IH]; intros ni nw nl user L WF HI HW; cbn [well_formed combination_values] in *.
    - reflexivity.
    - apply (IH (S ni) nw nl user); [exact WF| |exact HW]. intros i Hi. apply HI. cbn. fold (instances r). lia.
    - apply (IH ni (S nw) nl user); [exact WF|exact HI|]. intros i Hi. apply HW. cbn. fold (witnesses r). lia.
    - destruct WF as [F WF]. rewrite (value_known ni nw user I W I' W' L l F) by (intros; first [apply HI|apply HW]; lia). exact (IH ni nw (S nl) (nl :: user) _ WF HI HW).
    - destruct WF as [F WF]. apply Forall_app in F. destruct F as [Fx F]. apply Forall_app in F. destruct F as [Fy Fz].
      assert (A : forall i, i < ni -> nth i I 0%fld = nth i I' 0%fld) by (intros i Hi; apply HI; lia).
      assert (B : forall i, i < nw -> nth i W 0%fld = nth i W' 0%fld) by (intros i Hi; apply HW; lia).
      rewrite (value_known ni nw user I W I' W' L x Fx A B), (value_known ni nw user I W I' W' L y Fy A B), (value_known ni nw user I W I' W' L z Fz A B).
      exact (IH ni nw (3 + nl) user _ WF HI HW).
  Qed.
  Definition true_values calls : list K := combination_values (1%fld :: instances calls) (witnesses calls) [] calls.
  Lemma true_values_extend calls (more : call K) j : proper (calls ++ [more]) -> j < length (combinations calls) ->
    nth j (true_values (calls ++ [more])) 0%fld = nth j (true_values calls) 0%fld.
  Proof.
    intros P Hj. unfold true_values. rewrite values_app. pose proof (wf_app calls _ _ _ _ [more] P) as P0. unfold instances at 2, witnesses at 2. unfold instances at 1, witnesses at 1. rewrite !flat_map_app. fold (instances calls) (witnesses calls).
    rewrite lcv_nth by (rewrite lcv_length; exact Hj). f_equal. apply (values_known _ _ _ _ calls 1 0 0 [] [] P0); intros i Hi.
    - rewrite app_comm_cons. apply app_nth1. exact Hi.
    - apply app_nth1. exact Hi.
  Qed.

  Lemma after_synth calls : proper calls -> exists s, synthesize (new_cs false true false) calls = Some s /\
    n_lc s = length (combinations calls) /\ inst s = 1%fld :: instances calls /\ wit s = witnesses calls /\ lc_map s = combine (seq 0 (length (combinations calls))) (combinations calls).
  Proof.
    intros _. destruct (synth_spec K calls (new_cs false true false) eq_refl) as (s & Es & _ & _ & _ & _ & _ & _ & S7 & S8 & S9 & S10 & _). exists s. split; [exact Es|].
    split; [exact S7|]. split; [exact S8|]. split; [exact S9|exact S10].
  Qed.
  Lemma query_spec calls c : proper calls -> faithful (length (combinations calls)) (true_values calls) c ->
    forall s, synthesize (new_cs false true false) calls = Some s -> forall i, i < length (combinations calls) ->
    exists c', cached (S (n_lc s)) (inst s) (wit s) (lc_map s) c (VLc i) = Some (nth i (true_values calls) 0%fld, c') /\ faithful (length (combinations calls)) (true_values calls) c'.
  Proof.
    intros P F s Es i Hi. destruct (after_synth calls P) as (s0 & E0 & A1 & A2 & A3 & A4). assert (s0 = s) by congruence. subst s0. rewrite A1, A2, A3, A4.
    apply (cached_spec (1 + length (instances calls)) (length (witnesses calls))); [reflexivity|reflexivity|exact (proper_refs K calls P)| |lia|exact Hi|exact F].
    intros j l E. exact (lcv_ok K _ _ calls 1 0 [] [] P (fun i Hi => match Hi with end) j l E).
  Qed.
  Lemma cache_faithful calls c : cache_after calls c -> proper calls -> faithful (length (combinations calls)) (true_values calls) c.
  Proof.
    induction 1 as [|calls c more H IH|calls c s i x c' H IH Es Q]; intros P.
    - intros j x E. discriminate E.
    - intros j x E. destruct (IH (wf_app calls _ _ _ _ [more] P) j x E) as [B ->]. rewrite lcs_app, app_length. split; [lia|]. symmetry. apply true_values_extend; assumption.
    - specialize (IH P). destruct (after_synth calls P) as (s0 & E0 & A1 & A2 & A3 & A4). assert (s0 = s) by congruence. subst s0.
      destruct (Nat.lt_ge_cases i (length (combinations calls))) as [Hi|Hi].
      + destruct (query_spec calls c P IH s Es i Hi) as (c2 & Q2 & F2). assert (c2 = c') by congruence. subst c2. exact F2.
      + exfalso. cbn [cached] in Q. destruct (find_value c i) as [y|] eqn:Fy; [destruct (IH i y Fy); lia|]. rewrite A4 in Q. change i with (0 + i) in Q. rewrite find_combine in Q.
        rewrite (proj2 (nth_error_None _ _) Hi) in Q. discriminate Q.
  Qed.
  Theorem cache_sound calls c : cache_after calls c -> proper calls ->
    exists s, synthesize (new_cs false true false) calls = Some s /\ forall i, i < length (combinations calls) ->
      exists c', cached (S (n_lc s)) (inst s) (wit s) (lc_map s) c (VLc i) = Some (nth i (combination_values (1%fld :: instances calls) (witnesses calls) [] calls) 0%fld, c').
  Proof.
    intros H P. destruct (after_synth calls P) as (s & Es & _). exists s. split; [exact Es|]. intros i Hi.
    destruct (query_spec calls c P (cache_faithful calls c H P) s Es i Hi) as (c' & Q & _). exists c'. exact Q.
  Qed.
End Cache.
