(** Process: every selector is assigned once, and its expression selects exactly its rows; the degree bound. *)
From Coq Require Import List Arith Bool Lia Permutation Ring Field Field_theory Sorted.
From Verif Require Import Field ExprModel ExprSpec SelectorModel SelectorProof SelectorProof2.
Import ListNotations.

Lemma pick_concat {A} (l : list A) (d : A) : forall md, (forall is, In is md -> forall i, In i is -> i < length l) ->
  concat (map (fun is => match pick l is with Some c => c | None => [] end) md) = map (fun i => nth i l d) (concat md).
Proof.
  induction md as [|is md IH]; intros H; [reflexivity|]. cbn [map concat]. rewrite map_app, IH by (intros js Hj; apply H; right; exact Hj). f_equal.
  specialize (H is (or_introl eq_refl)). clear -H. induction is as [|i is IH]; [reflexivity|]. cbn [pick map].
  rewrite (nth_error_nth' l d) by (apply H; left; reflexivity). specialize (IH (fun j Hj => H j (or_intror Hj))).
  destruct (pick_spec l is (fun j Hj => H j (or_intror Hj))) as [c [E _]]. rewrite E in *. rewrite IH. reflexivity.
Qed.

Lemma map_nth_seq_id {A} (d : A) : forall l, map (fun i => nth i l d) (seq 0 (length l)) = l.
Proof.
  induction l as [|x l IH]; [reflexivity|]. cbn [length seq map nth]. f_equal. rewrite <- seq_shift, map_map. exact IH.
Qed.

Lemma describe_spec : forall sin k degs, length sin + k <= length degs -> exists sels, describe k sin degs = Some sels /\ length sels = length sin /\
  forall i s, nth_error sels i = Some s -> selector_index s = k + i /\ nth_error sin i = Some (activations s) /\ nth_error degs (k + i) = Some (max_degree_of s).
Proof.
  induction sin as [|a sin IH]; intros k degs H.
  - exists []. repeat split; destruct i; discriminate.
  - cbn in H. cbn [describe]. destruct (nth_error degs k) as [d|] eqn:E; [|apply nth_error_None in E; lia].
    destruct (IH (S k) degs) as [r [-> [L Hr]]]; [lia|]. eexists. split; [reflexivity|]. split; [cbn; lia|].
    intros [|i] s Es.
    + injection Es as <-. cbn. rewrite Nat.add_0_r. auto.
    + cbn [nth_error] in *. rewrite <- Nat.add_succ_comm. apply (Hr i s Es).
Qed.
Lemma describe_length sin k degs sels : describe k sin degs = Some sels -> length sin + k <= length degs \/ sin = [].
Proof.
  revert k sels. induction sin as [|a sin IH]; intros k sels H; [right; reflexivity|left]. cbn in H.
  destruct (nth_error degs k) eqn:E; [|discriminate]. destruct (describe (S k) sin degs) eqn:E2; [|discriminate].
  apply IH in E2 as [?| ->]; cbn; [lia|]. assert (k < length degs) by (apply nth_error_Some; congruence). lia.
Qed.

Lemma filter_split {A} (p : A -> bool) : forall l, Permutation (filter p l ++ filter (fun x => negb (p x)) l) l.
Proof.
  induction l as [|x l IH]; [constructor|]. cbn [filter]. destruct (p x); cbn [negb app].
  - constructor. exact IH.
  - apply Permutation_sym. apply Permutation_cons_app. apply Permutation_sym. exact IH.
Qed.
Lemma filter_neg_ext {A} (p q : A -> bool) l : (forall x, q x = negb (p x)) -> filter q l = filter (fun x => negb (p x)) l.
Proof. intros H. induction l; cbn; [reflexivity|]. rewrite H, IHl. reflexivity. Qed.

Lemma sorted_filter {A} (R : A -> A -> Prop) (p : A -> bool) l : StronglySorted R l -> StronglySorted R (filter p l).
Proof.
  induction 1 as [|x l H IH HF]; cbn; [constructor|]. destruct (p x); [constructor; [exact IH|]|exact IH].
  apply Forall_forall. intros y Hy. apply filter_In in Hy as [Hy _]. rewrite Forall_forall in HF. apply HF. exact Hy.
Qed.
Lemma sorted_nth {A} (R : A -> A -> Prop) l : StronglySorted R l -> forall i j a b, i < j -> nth_error l i = Some a -> nth_error l j = Some b -> R a b.
Proof.
  induction 1 as [|x l H IH HF]; intros i j a b Hij Ha Hb; [destruct i; discriminate|].
  destruct j; [lia|]. destruct i.
  - injection Ha as <-. rewrite Forall_forall in HF. apply HF. eapply nth_error_In. exact Hb.
  - apply (IH i j a b); [lia|exact Ha|exact Hb].
Qed.
Lemma nth_sorted {A} (R : A -> A -> Prop) l : (forall i j a b, i < j -> nth_error l i = Some a -> nth_error l j = Some b -> R a b) -> StronglySorted R l.
Proof.
  induction l as [|x l IH]; intros H; [constructor|]. constructor.
  - apply IH. intros i j a b Hij Ha Hb. apply (H (S i) (S j)); [lia|exact Ha|exact Hb].
  - apply Forall_forall. intros y Hy. apply In_nth_error in Hy as [k Hk]. apply (H 0 (S k)); [lia|reflexivity|exact Hk].
Qed.

Section Process.
  Variable K : fld.
  Add Field Kf_selx : (fld_theory K).
  Open Scope fld_scope.
  Variable query : nat -> expr K.

  (** The general shape: whatever is true of the two ways of assigning is true of all assignments. *)
  Lemma process_good (P : list K -> description -> nat -> expr K -> Prop) sin degs md n cols asg calls :
    Forall (fun a => length a = n) sin -> length sin <= length degs ->
    (forall s c, max_degree_of s = 0%nat -> length (activations s) = n -> P (map (fun b : bool => if b then (1 : K) else 0) (activations s)) s c (query c)) ->
    (forall sels comb is col c k s, describe 0 sin degs = Some sels ->
       good_combs (filter (fun s => negb (max_degree_of s =? 0)) sels) md [is] ->
       pick (filter (fun s => negb (max_degree_of s =? 0)) sels) is = Some comb -> length comb <= length sin -> length is = length comb ->
       (forall k i, nth_error is k = Some i -> nth_error comb k = nth_error (filter (fun s => negb (max_degree_of s =? 0)) sels) i) ->
       length col = n -> nth_error comb k = Some s -> pairwise_orth comb -> In s (filter (fun s => negb (max_degree_of s =? 0)) sels) ->
       (forall r, r < n -> (forall k s, nth_error comb k = Some s -> nth r (activations s) false = true -> nth r col 0 = 1 + fnat k) /\
                           ((forall s, In s comb -> nth r (activations s) false = false) -> nth r col 0 = 0)) ->
       P col s c (root_product (query c) (1 + fnat k) (length comb) 1 (query c))) ->
    process query sin degs md = Some (cols, asg, calls) ->
    exists sels D, describe 0 sin degs = Some sels /\ Permutation D sels /\ good K n P D (cols, asg, calls).
  Proof.
    intros HF HL HZ HC HE. destruct sin as [|a0 sin'].
    - cbn in HE. injection HE as <- <- <-. exists [], []. split; [reflexivity|]. split; [constructor|]. repeat split; constructor.
    - unfold process in HE. set (sin := a0 :: sin') in *. assert (Hn : length a0 = n) by (apply Forall_cons_iff in HF; apply HF).
      destruct (describe_spec sin 0 degs) as [sels [Hd [Ls Hs]]]; [lia|]. rewrite Hd in HE.
      assert (HFs : Forall (fun s => length (activations s) = n) sels).
      { apply Forall_forall. intros s Hin. apply In_nth_error in Hin as [i Hi]. destruct (Hs i s Hi) as [_ [Ha _]]. rewrite Forall_forall in HF. apply HF. eapply nth_error_In. exact Ha. }
      destruct (good_zero K query n P HZ sels [] ([], [], 0%nat) HFs) as [st [Ez Gz]]; [repeat split; constructor|]. rewrite Ez in HE.
      set (rest := filter (fun s => negb (max_degree_of s =? 0)) sels) in *.
      assert (HFr : Forall (fun s => length (activations s) = n) rest).
      { apply Forall_forall. intros s Hin. apply filter_In in Hin as [Hin _]. rewrite Forall_forall in HFs. apply HFs. exact Hin. }
      destruct (combine_simple (exclusion_matrix rest) rest md (seq 0 (length rest)) (repeat false (length rest))) as [combs|] eqn:Ec; [|discriminate].
      apply combine_simple_spec in Ec; [|lia|apply repeat_length|intros i Hi; lia]. destruct Ec as [[ND HFc] Hcov].
      assert (Hin : forall i, In i (concat combs) <-> i < length rest).
      { intros i. rewrite Hcov. split; intros H.
        - assert (i < length (repeat false (length rest))) by (apply nth_error_Some; congruence). rewrite repeat_length in H0. exact H0.
        - rewrite (nth_error_nth' _ false) by (rewrite repeat_length; exact H). rewrite nth_repeat. reflexivity. }
      rewrite Hn in HE.
      assert (Hmem : forall is, In is combs -> forall i, In i is -> i < length rest).
      { intros is His i Hi. apply Hin. apply in_concat. exists is. split; assumption. }
      assert (HNDis : forall is, In is combs -> NoDup is).
      { clear -ND. induction combs as [|c r IH]; intros is [].
        - subst. cbn in ND. clear -ND. induction is; [constructor|]. inversion ND; subst. constructor; [intros H; apply H1, in_or_app; left; exact H|apply IHis; assumption].
        - cbn in ND. assert (NoDup (concat r)) by (clear -ND; induction c; [exact ND|]; inversion ND; subst; apply IHc; assumption). apply IH; assumption. }
      assert (Hrl : length rest <= length sin).
      { rewrite <- Ls. unfold rest. clear. induction sels as [|x l IH]; cbn; [lia|]. destruct (negb _); cbn; lia. }
      destruct (good_all K query n P rest combs) with (D := filter (fun s => max_degree_of s =? 0) sels) (st := st) as [st' [D' [E [G Pm]]]].
      + intros comb col c k s Hcomb Hcol Hk HO Hr. apply in_map_iff in Hcomb as [is [Eis His]].
        destruct (pick_spec rest is (Hmem is His)) as [c' [E1 [E2 E3]]]. rewrite E1 in Eis. subst c'.
        assert (Hleq : length comb <= length rest).
        { rewrite E2. rewrite <- (seq_length (length rest) 0). apply NoDup_incl_length; [apply HNDis; exact His|]. intros i Hi. apply in_seq. specialize (Hmem is His i Hi). lia. }
        apply (HC sels comb is col c k s Hd); auto.
        * split; [cbn; rewrite app_nil_r; apply HNDis; exact His|]. constructor; [|constructor]. rewrite Forall_forall in HFc. apply HFc. exact His.
        * lia.
        * assert (Lk : k < length is) by (rewrite <- E2; apply nth_error_Some; congruence).
          rewrite (E3 k _ (nth_error_nth' is 0%nat Lk)) in Hk. eapply nth_error_In. exact Hk.
      + exact HFr.
      + apply Forall_forall. intros is His. split; [apply Hmem; exact His|]. split; [apply HNDis; exact His|]. rewrite Forall_forall in HFc. apply HFc. exact His.
      + exact Gz.
      + rewrite E in HE. injection HE as ->. exists sels, (filter (fun s => max_degree_of s =? 0) sels ++ D'). split; [exact Hd|]. split; [|exact G].
        etransitivity; [apply Permutation_app_head; exact Pm|].
        destruct rest as [|d0 rest'] eqn:Er.
        * assert (concat combs = []) by (destruct (concat combs) as [|z]; [reflexivity|]; specialize (proj1 (Hin z) (or_introl eq_refl)); cbn; lia).
          rewrite (pick_concat [] (Build_description 0 [] 0)) by exact Hmem. rewrite H. cbn [map]. 
          etransitivity; [|apply (filter_split (fun s => max_degree_of s =? 0) sels)]. apply Permutation_app_head. unfold rest in Er. rewrite Er. constructor.
        * rewrite (pick_concat (d0 :: rest') d0) by exact Hmem. etransitivity; [|apply (filter_split (fun s => max_degree_of s =? 0) sels)]. apply Permutation_app_head.
          fold rest. rewrite Er. etransitivity; [apply Permutation_map, NoDup_Permutation with (l' := seq 0 (length (d0 :: rest')))|].
          -- exact ND.
          -- apply seq_NoDup.
          -- intros i. rewrite Hin, in_seq. lia.
          -- rewrite map_nth_seq_id. apply Permutation_refl.
  Qed.

  Lemma describe_index sin degs sels : describe 0 sin degs = Some sels -> map selector_index sels = seq 0 (length sin).
  Proof.
    intros H. destruct (describe_length _ _ _ _ H) as [Hl| ->]; [|cbn in H; injection H as <-; reflexivity].
    destruct (describe_spec sin 0 degs) as [sels' [Hd [Ls Hs]]]; [lia|]. rewrite H in Hd. injection Hd as <-.
    apply nth_ext with (d := 0%nat) (d' := 0%nat); [rewrite map_length, seq_length; exact Ls|]. rewrite map_length. intros i Hi.
    destruct (nth_error sels i) as [s|] eqn:E; [|apply nth_error_None in E; lia].
    rewrite seq_nth by lia. erewrite nth_indep by (rewrite map_length; exact Hi). rewrite (map_nth selector_index sels s i).
    rewrite (nth_error_nth sels i s E). apply (Hs i s E).
  Qed.

  Theorem compression_selects sin degs md n cols asg calls :
    Forall (fun a => length a = n) sin -> length sin <= length degs ->
    (forall k, 0 < k <= length sin -> (fnat k : K) <> 0) ->
    process query sin degs md = Some (cols, asg, calls) ->
    calls = length cols /\ Forall (fun c => length c = n) cols /\
    Permutation (map (fun a => fst (fst a)) asg) (seq 0 (length sin)) /\
    forall i c e, In (i, c, e) asg -> c < length cols /\
      forall row (v : leaves K), row < n -> value v (query c) = nth row (nth c cols []) 0 ->
        (value v e <> 0 <-> nth row (nth i sin []) false = true) /\
        (nth i degs 0%nat = 0%nat -> value v e = if nth row (nth i sin []) false then 1 else 0).
  Proof.
    intros HF HL Hchar HE.
    destruct (process_good (fun col s c e => forall row (v : leaves K), row < n -> value v (query c) = nth row col 0 ->
        (value v e <> 0 <-> nth row (activations s) false = true) /\
        (max_degree_of s = 0%nat -> value v e = if nth row (activations s) false then 1 else 0)) sin degs md n cols asg calls HF HL) as [sels [D [Hd [Pm G]]]].
    - intros s c Hz Hl row v Hr Hv.
      assert (E : value v (query c) = if nth row (activations s) false then 1 else 0).
      { rewrite Hv. apply (map_nth (fun b : bool => if b then (1 : K) else 0) (activations s) false row). }
      split; [|intros _; exact E]. rewrite E. destruct (nth row (activations s) false); split; intros H; try reflexivity; try discriminate; try (exfalso; apply H; reflexivity); apply f1_neq_0.
    - intros sels comb is col c k s _ _ _ Hlen _ _ Hcol Hk HO Hin Hr row v Hrow Hv. split.
      + apply (selected K v (query c) comb col n k s row); auto.
        * intros k' Hk'. apply Hchar. lia.
        * apply (proj1 (Hr row Hrow)).
        * apply (proj2 (Hr row Hrow)).
      + intros Hz. apply filter_In in Hin as [_ Hin]. rewrite Hz in Hin. discriminate.
    - exact HE.
    - destruct G as [Hc [HFc H2]]. split; [exact Hc|]. split; [exact HFc|]. split.
      + rewrite <- (describe_index sin degs sels Hd). etransitivity; [|apply Permutation_map; exact Pm].
        clear -H2. induction H2; cbn; [constructor|]. destruct H as [-> _]. constructor. exact IHForall2.
      + intros i c e Hin.
        assert (W : exists s, In s D /\ i = selector_index s /\ c < length cols /\
           forall row (v : leaves K), row < n -> value v (query c) = nth row (nth c cols []) 0 ->
           (value v e <> 0 <-> nth row (activations s) false = true) /\ (max_degree_of s = 0%nat -> value v e = if nth row (activations s) false then 1 else 0)).
        { clear -Hin H2. induction H2 as [|s a D asg H H2 IH]; [destruct Hin|]. destruct Hin as [->|Hin].
          - exists s. cbn [fst snd] in H. split; [left; reflexivity|]. split; [apply H|]. split; [apply H|]. apply H.
          - destruct (IH Hin) as [s' [? ?]]. exists s'. split; [right; assumption|assumption]. }
        destruct W as [s [Hs [-> [Hcl Hv]]]]. split; [exact Hcl|]. intros row v Hrow Hq.
        assert (Hs' : In s sels) by (eapply Permutation_in; eassumption). apply In_nth_error in Hs' as [i Hi].
        destruct (describe_spec sin 0 degs) as [sels' [Hd' [Ls Hsp]]]; [lia|]. rewrite Hd in Hd'. injection Hd' as <-.
        destruct (Hsp i s Hi) as [Ei [Ea Ed]]. cbn [Nat.add] in Ei, Ed. rewrite Ei. rewrite (nth_error_nth sin i [] Ea). rewrite (nth_error_nth degs i 0%nat Ed). apply Hv; assumption.
  Qed.

  Theorem compression_total sin degs md n : Forall (fun a => length a = n) sin -> length sin <= length degs -> Forall (fun d => d <= md) degs ->
    exists r, process query sin degs md = Some r.
  Proof.
    intros HF HL Hd. destruct sin as [|a0 sin']; [eexists; reflexivity|]. unfold process. set (sin := a0 :: sin') in *.
    assert (Hn : length a0 = n) by (apply Forall_cons_iff in HF; apply HF). destruct (describe_spec sin 0 degs) as [sels [Ed [Ls Hs]]]; [lia|]. rewrite Ed.
    assert (HFs : Forall (fun s => length (activations s) = n) sels).
    { apply Forall_forall. intros s Hin. apply In_nth_error in Hin as [i Hi]. destruct (Hs i s Hi) as [_ [Ha _]]. rewrite Forall_forall in HF. apply HF. eapply nth_error_In. exact Ha. }
    destruct (good_zero K query n (fun _ _ _ _ => True) (fun _ _ _ _ => I) sels [] ([], [], 0%nat) HFs) as [st [Ez Gz]]; [repeat split; constructor|]. rewrite Ez.
    set (rest := filter (fun s => negb (max_degree_of s =? 0)) sels) in *.
    destruct (combine_simple_some rest md) with (todo := length rest) (k := 0%nat) (added := repeat false (length rest)) as [combs Ec].
    { intros s Hin. apply filter_In in Hin as [Hin _]. apply In_nth_error in Hin as [i Hi]. destruct (Hs i s Hi) as [_ [_ Hdi]]. rewrite Forall_forall in Hd. apply Hd. eapply nth_error_In. exact Hdi. }
    { lia. } { apply repeat_length. }
    rewrite Ec. apply combine_simple_spec in Ec; [|lia|apply repeat_length|intros i Hi; lia]. destruct Ec as [[ND HFc] Hcov].
    assert (Hmem : forall is, In is combs -> forall i, In i is -> i < length rest).
    { intros is His i Hi. assert (H : In i (concat combs)) by (apply in_concat; exists is; split; assumption). apply Hcov in H.
      assert (i < length (repeat false (length rest))) by (apply nth_error_Some; congruence). rewrite repeat_length in H0. exact H0. }
    assert (HNDis : forall is, In is combs -> NoDup is).
    { clear -ND. induction combs as [|c r IH]; intros is [].
      - subst. cbn in ND. clear -ND. induction is; [constructor|]. inversion ND; subst. constructor; [intros H; apply H1, in_or_app; left; exact H|apply IHis; assumption].
      - cbn in ND. assert (NoDup (concat r)) by (clear -ND; induction c; [exact ND|]; inversion ND; subst; apply IHc; assumption). apply IH; assumption. }
    destruct (good_all K query n (fun _ _ _ _ => True) rest combs) with (D := filter (fun s => max_degree_of s =? 0) sels) (st := st) as [st' [D' [E _]]].
    - auto.
    - apply Forall_forall. intros s Hin. apply filter_In in Hin as [Hin _]. rewrite Forall_forall in HFs. apply HFs. exact Hin.
    - apply Forall_forall. intros is His. split; [apply Hmem; exact His|]. split; [apply HNDis; exact His|]. rewrite Forall_forall in HFc. apply HFc. exact His.
    - exact Gz.
    - exists st'. rewrite Hn. exact E.
  Qed.

  Theorem compression_degree sin degs md n cols asg calls : (forall k, degree (query k) <= 1) ->
    Forall (fun a => length a = n) sin -> length sin <= length degs ->
    (forall i j di dj, i < j -> nth_error degs i = Some di -> nth_error degs j = Some dj -> di <> 0%nat -> dj <= di) ->
    process query sin degs md = Some (cols, asg, calls) ->
    forall i c e, In (i, c, e) asg -> nth i degs 0%nat <> 0%nat -> nth i degs 0%nat - 1 + degree e <= md.
  Proof.
    intros Hq HF HL Hmono HE i c e Hin Hne.
    destruct (process_good (fun col s c e => max_degree_of s <> 0%nat -> max_degree_of s - 1 + degree e <= md) sin degs md n cols asg calls HF HL) as [sels [D [Hd [Pm G]]]].
    - intros s c' Hz _ Hz'. contradiction.
    - intros sels comb is col c' k s Hd HG Hp _ Hlen Hpk _ Hk _ Hin' _ Hs. set (rest := filter (fun s => negb (max_degree_of s =? 0)) sels) in *.
      assert (Lk : k < length comb) by (apply nth_error_Some; congruence).
      pose proof (root_product_degree' K (query c') (1 + fnat k) (Hq c') (length comb) 1 (query c') k Lk eq_refl) as Hdeg. specialize (Hq c').
      destruct HG as [_ HG]. apply Forall_cons_iff in HG as [[_ [i0 [r [s0 [-> [Es0 [Hr Hb]]]]]]] _].
      assert (Hs0 : 1 <= max_degree_of s0).
      { apply nth_error_In in Es0. apply filter_In in Es0 as [_ Es0]. destruct (max_degree_of s0); [discriminate|lia]. }
      specialize (Hb Hs0).
      assert (Hle : max_degree_of s <= max_degree_of s0).
      { destruct k; [rewrite (Hpk 0%nat i0 eq_refl) in Hk; rewrite Es0 in Hk; injection Hk as ->; lia|].
        assert (Lk' : S k < length (i0 :: r)) by lia.
        destruct (nth_error (i0 :: r) (S k)) as [j|] eqn:Ej; [|apply nth_error_None in Ej; lia].
        rewrite (Hpk _ _ Ej) in Hk. cbn [nth_error] in Ej. rewrite Forall_forall in Hr. specialize (Hr j (nth_error_In _ _ Ej)).
        destruct (describe_spec sin 0 degs) as [sels' [Hd' [Ls Hsp]]]; [lia|]. rewrite Hd in Hd'. injection Hd' as <-.
        assert (SS : StronglySorted (fun a b => max_degree_of a <> 0%nat -> max_degree_of b <= max_degree_of a) sels).
        { apply nth_sorted. intros x y a b Hxy Ha Hb' Hna. destruct (Hsp x a Ha) as [_ [_ Hx]]. destruct (Hsp y b Hb') as [_ [_ Hy]].
          apply (Hmono x y _ _ Hxy Hx Hy Hna). }
        apply (sorted_filter _ (fun s => negb (max_degree_of s =? 0))) in SS. fold rest in SS.
        apply (sorted_nth _ _ SS i0 j s0 s Hr Es0 Hk). lia. }
      lia.
    - exact HE.
    - destruct G as [_ [_ H2]].
      assert (W : exists s, In s D /\ i = selector_index s /\ (max_degree_of s <> 0%nat -> max_degree_of s - 1 + degree e <= md)).
      { clear -Hin H2. induction H2 as [|s a D asg H H2 IH]; [destruct Hin|]. destruct Hin as [->|Hin].
        - exists s. cbn [fst snd] in H. split; [left; reflexivity|]. split; apply H.
        - destruct (IH Hin) as [s' [? ?]]. exists s'. split; [right; assumption|assumption]. }
      destruct W as [s [Hs [-> Hb]]].
      assert (Hs' : In s sels) by (eapply Permutation_in; eassumption). apply In_nth_error in Hs' as [k Hk].
      destruct (describe_spec sin 0 degs) as [sels' [Hd' [Ls Hsp]]]; [lia|]. rewrite Hd in Hd'. injection Hd' as <-.
      destruct (Hsp k s Hk) as [Ei [_ Ed]]. cbn [Nat.add] in Ei, Ed. rewrite Ei in *. rewrite (nth_error_nth degs k 0%nat Ed) in *. apply Hb. exact Hne.
  Qed.
End Process.
