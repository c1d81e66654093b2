(** Linear combinations: arithmetic keeps values and the order of the terms. *)
From Coq Require Import List Bool Arith Lia Permutation Sorted Ring Field Field_theory.
From Verif Require Import Field R1csModel R1csSpec.
Import ListNotations.
Open Scope fld_scope.

Lemma var_eqb_spec a b : var_eqb a b = true <-> a = b.
Proof.
  unfold var_eqb. rewrite andb_true_iff, !Nat.eqb_eq. split; [|intros ->; split; reflexivity].
  destruct a, b; cbn; intros [H1 H2]; try discriminate H1; congruence.
Qed.
Lemma var_ltb_spec a b : var_ltb a b = true <-> before a b.
Proof.
  unfold var_ltb, before. destruct a, b; cbn [var_type var_index Nat.eqb]; rewrite ?Nat.ltb_lt; try (split; [discriminate|lia]); lia.
Qed.
Lemma var_gtb_spec a b : var_gtb a b = true <-> before b a.
Proof.
  unfold var_gtb, var_leb, before. rewrite negb_true_iff.
  destruct a, b; cbn [var_type var_index Nat.eqb]; rewrite ?Nat.leb_gt, ?Nat.ltb_ge; try (split; [discriminate|lia]); lia.
Qed.
Lemma before_irrefl a : ~ before a a. Proof. unfold before. lia. Qed.
Lemma before_trans a b c : before a b -> before b c -> before a c. Proof. unfold before. lia. Qed.
Lemma before_total a b : before a b \/ a = b \/ before b a.
Proof.
  unfold before. destruct (Nat.lt_trichotomy (var_type a) (var_type b)) as [H|[H|H]]; [tauto| |tauto].
  destruct (Nat.lt_trichotomy (var_index a) (var_index b)) as [J|[J|J]]; [tauto| |right; right; right; split; [symmetry; exact H|exact J]].
  right. left. apply var_eqb_spec. unfold var_eqb. rewrite H, J, !Nat.eqb_refl. reflexivity.
Qed.

Section Lc.
  Variable K : fld.
  Add Field Kr1 : (fld_theory K).
  Implicit Types l r : lc K.

  Lemma value_nil I W L : value (K := K) I W L [] = 0. Proof. reflexivity. Qed.
  Lemma value_cons I W L (t : term K) l : value I W L (t :: l) = fst t * val I W L (snd t) + value I W L l. Proof. reflexivity. Qed.
  Lemma value_app I W L l r : value I W L (l ++ r) = value I W L l + value I W L r.
  Proof. unfold value. rewrite map_app, fsum_app. reflexivity. Qed.
  Lemma value_perm I W L l r : Permutation l r -> value I W L l = value I W L r.
  Proof. intros H. unfold value. apply fsum_perm, Permutation_map, H. Qed.
  Lemma value_scale I W L l c : value I W L (scale_lc l c) = value I W L l * c.
  Proof. induction l as [|t l IH]; [cbn; ring|]. cbn [scale_lc map]. rewrite !value_cons. fold (scale_lc l c). rewrite IH. cbn [fst snd]. ring. Qed.
  Lemma value_neg I W L l : value I W L (neg_lc l) = - value I W L l.
  Proof. induction l as [|t l IH]; [cbn; ring|]. cbn [neg_lc map]. rewrite !value_cons. fold (neg_lc l). rewrite IH. cbn [neg_term fst snd]. ring. Qed.

  (** Deduplicate. *)
  Lemma dedup_value I W L l : forall cur : term K, value I W L (dedup_from cur l) = value I W L (cur :: l).
  Proof.
    induction l as [|t l IH]; intros cur; [reflexivity|]. cbn [dedup_from].
    destruct (var_eqb (snd cur) (snd t)) eqn:E.
    - apply var_eqb_spec in E. rewrite IH, !value_cons. cbn [fst snd]. rewrite E. ring.
    - rewrite !value_cons, IH, value_cons. reflexivity.
  Qed.
  Lemma dedup_vars l : forall (cur : term K) (P : var -> Prop), P (snd cur) -> Forall (fun t => P (snd t)) l -> Forall (fun t => P (snd t)) (dedup_from cur l).
  Proof.
    induction l as [|t l IH]; intros cur P H F; [repeat constructor; exact H|]. inversion_clear F as [|? ? Ft Fl]. cbn [dedup_from].
    destruct (var_eqb (snd cur) (snd t)); [apply IH; assumption|]. constructor; [exact H|]. apply IH; assumption.
  Qed.
  Lemma dedup_normal l : forall cur : term K,
    StronglySorted (fun t u : term K => before (snd t) (snd u) \/ snd t = snd u) (cur :: l) -> normal (dedup_from cur l).
  Proof.
    induction l as [|t l IH]; intros cur S; [repeat constructor|]. cbn [dedup_from].
    inversion_clear S as [|? ? S' F]. inversion_clear F as [|? ? Ft Fl].
    destruct (var_eqb (snd cur) (snd t)) eqn:E.
    - apply var_eqb_spec in E. apply IH. inversion_clear S' as [|? ? S'' F']. constructor; [exact S''|]. cbn [snd]. rewrite E. exact F'.
    - assert (B : before (snd cur) (snd t)).
      { destruct Ft as [B|B]; [exact B|]. apply var_eqb_spec in B. rewrite B in E. discriminate E. }
      constructor; [apply IH; exact S'|]. apply (dedup_vars l t (fun v => before (snd cur) v)); [exact B|].
      inversion_clear S' as [|? ? _ F']. apply Forall_forall. intros u Hu. apply (proj1 (Forall_forall _ _)) with (x := u) in F'; [|exact Hu].
      destruct F' as [F'|F']; [exact (before_trans _ _ _ B F')|rewrite <- F'; exact B].
  Qed.
  Lemma deduplicate_spec sort I W L l : sorts_terms sort -> value I W L (deduplicate sort l) = value I W L l /\ normal (deduplicate sort l).
  Proof.
    intros HS. destruct (HS l) as [P S]. unfold deduplicate. rewrite (value_perm I W L _ _ P).
    destruct (sort l) as [|t r]; [split; [reflexivity|constructor]|]. split; [apply dedup_value|apply dedup_normal, S].
  Qed.
  Lemma deduplicate_vars sort l (P : var -> Prop) : sorts_terms sort -> Forall (fun t => P (snd t)) l -> Forall (fun t => P (snd t)) (deduplicate sort l).
  Proof.
    intros HS F. destruct (HS l) as [Q _]. unfold deduplicate.
    assert (G : Forall (fun t => P (snd t)) (sort l)) by (apply Forall_forall; intros u Hu; apply (proj1 (Forall_forall _ _) F); apply (Permutation_in _ (Permutation_sym Q)), Hu).
    destruct (sort l) as [|t r]; [constructor|]. inversion_clear G. apply dedup_vars; assumption.
  Qed.

  (** Addition of linear combinations. *)
  Notation sgn neg u := (if neg : bool then neg_term u else u).
  Lemma do_addition_nil_l neg r : do_addition neg [] r = map (fun u => sgn neg u) r.
  Proof. induction r as [|u r IH]; [reflexivity|]. cbn [do_addition map]. f_equal; exact IH. Qed.
  Lemma do_addition_nil_r neg l : do_addition neg l [] = l.
  Proof. induction l as [|t l IH]; [reflexivity|]. cbn [do_addition]. f_equal. exact IH. Qed.
  Lemma do_addition_cons neg (t u : term K) l r : do_addition neg (t :: l) (u :: r) =
    if var_ltb (snd t) (snd u) then t :: do_addition neg l (u :: r)
    else if var_gtb (snd t) (snd u) then sgn neg u :: do_addition neg (t :: l) r
    else ((if neg then fst t - fst u else fst t + fst u), snd t) :: do_addition neg l r.
  Proof. reflexivity. Qed.
  Lemma merge_ind (P : lc K -> lc K -> Prop) : (forall r, P [] r) -> (forall l, P l []) ->
    (forall t u l r, P l (u :: r) -> P (t :: l) r -> P l r -> P (t :: l) (u :: r)) -> forall l r, P l r.
  Proof.
    intros H1 H2 H3. induction l as [|t l IH]; [exact H1|]. induction r as [|u r IHr]; [apply H2|]. apply H3; [apply IH|exact IHr|apply IH].
  Qed.
  Lemma do_addition_value neg I W L l r : value I W L (do_addition neg l r) = value I W L l + value I W L (map (fun u => sgn neg u) r).
  Proof.
    revert l r. apply merge_ind.
    - intros r. rewrite do_addition_nil_l, value_nil. ring.
    - intros l. rewrite do_addition_nil_r. cbn [map]. rewrite value_nil. ring.
    - intros t u l r H1 H2 H3. rewrite do_addition_cons. cbn [map] in *. destruct (var_ltb (snd t) (snd u)) eqn:E.
      + rewrite !value_cons, H1, value_cons. ring.
      + destruct (var_gtb (snd t) (snd u)) eqn:G.
        * rewrite value_cons, H2, !value_cons. ring.
        * assert (V : snd t = snd u).
          { destruct (before_total (snd t) (snd u)) as [B|[B|B]]; [apply var_ltb_spec in B; congruence|exact B|apply var_gtb_spec in B; congruence]. }
          rewrite !value_cons, H3. cbn [fst snd]. rewrite V. destruct neg; cbn [neg_term fst snd]; ring.
  Qed.
  Lemma do_addition_vars neg (P : var -> Prop) l r : Forall (fun t => P (snd t)) l -> Forall (fun t => P (snd t)) r ->
    Forall (fun t => P (snd t)) (do_addition neg l r).
  Proof.
    revert l r. apply (merge_ind (fun l r => Forall (fun t : term K => P (snd t)) l -> Forall (fun t : term K => P (snd t)) r -> Forall (fun t : term K => P (snd t)) (do_addition neg l r))).
    - intros r _ F. rewrite do_addition_nil_l. apply Forall_forall. intros x Hx. apply in_map_iff in Hx. destruct Hx as (u & <- & Hu).
      apply (proj1 (Forall_forall _ _) F) in Hu. destruct neg; exact Hu.
    - intros l F _. rewrite do_addition_nil_r. exact F.
    - intros t u l r H1 H2 H3 Fl Fr. rewrite do_addition_cons. inversion Fl as [|? ? Ft Fl']; inversion Fr as [|? ? Fu Fr']; subst.
      destruct (var_ltb (snd t) (snd u)); [constructor; auto|]. destruct (var_gtb (snd t) (snd u)); constructor; auto. destruct neg; exact Fu.
  Qed.
  Lemma sgn_var neg (u : term K) : snd (sgn neg u) = snd u. Proof. destruct neg; reflexivity. Qed.
  Lemma sgn_normal neg r : normal r -> normal (map (fun u => sgn neg u) r).
  Proof.
    induction 1 as [|u r S IH F]; [constructor|]. cbn [map]. constructor; [exact IH|]. apply Forall_forall. intros x Hx. apply in_map_iff in Hx.
    destruct Hx as (y & <- & Hy). rewrite !sgn_var. exact (proj1 (Forall_forall _ _) F y Hy).
  Qed.
  Lemma do_addition_normal neg l r : normal l -> normal r -> normal (do_addition neg l r).
  Proof.
    revert l r. apply (merge_ind (fun l r => normal l -> normal r -> normal (do_addition neg l r))).
    - intros r _ N. rewrite do_addition_nil_l. apply sgn_normal, N.
    - intros l N _. rewrite do_addition_nil_r. exact N.
    - intros t u l r H1 H2 H3 Nl Nr. rewrite do_addition_cons. inversion Nl as [|? ? Nl' Ft]; inversion Nr as [|? ? Nr' Fu]; subst.
      assert (up : forall a b (m : lc K), before a b -> Forall (fun y : term K => before b (snd y)) m -> Forall (fun y : term K => before a (snd y)) m).
      { intros a b m B F. apply Forall_forall. intros y Hy. exact (before_trans _ _ _ B (proj1 (Forall_forall _ _) F y Hy)). }
      destruct (var_ltb (snd t) (snd u)) eqn:E.
      + apply var_ltb_spec in E. constructor; [apply H1; assumption|]. apply do_addition_vars; [exact Ft|]. constructor; [exact E|]. exact (up _ _ _ E Fu).
      + destruct (var_gtb (snd t) (snd u)) eqn:G.
        * apply var_gtb_spec in G. constructor; [apply H2; assumption|]. rewrite sgn_var. apply do_addition_vars; [constructor; [exact G|]; exact (up _ _ _ G Ft)|exact Fu].
        * assert (V : snd t = snd u).
          { destruct (before_total (snd t) (snd u)) as [B|[B|B]]; [apply var_ltb_spec in B; congruence|exact B|apply var_gtb_spec in B; congruence]. }
          constructor; [apply H3; assumption|]. cbn [snd]. apply do_addition_vars; [exact Ft|]. rewrite V. exact Fu.
  Qed.
  Lemma add_lc_spec I W L l r : value I W L (add_lc l r) = value I W L l + value I W L r /\ (normal l -> normal r -> normal (add_lc l r)).
  Proof.
    unfold add_lc. destruct l as [|t l]; [split; [rewrite value_nil; ring|tauto]|]. destruct r as [|u r]; [split; [rewrite value_nil; ring|tauto]|].
    split; [|apply do_addition_normal]. rewrite do_addition_value. rewrite map_id. reflexivity.
  Qed.
  Lemma sub_lc_spec I W L l r : value I W L (sub_lc l r) = value I W L l - value I W L r /\ (normal l -> normal r -> normal (sub_lc l r)).
  Proof.
    unfold sub_lc. destruct l as [|t l]; [split; [rewrite value_nil, value_neg; ring|intros _; apply (sgn_normal true)]|]. destruct r as [|u r]; [split; [rewrite value_nil; ring|tauto]|].
    split; [|apply do_addition_normal]. transitivity (value I W L (t :: l) + value I W L (neg_lc (u :: r))); [apply (do_addition_value true)|rewrite value_neg; ring].
  Qed.
  Lemma scale_normal l c : normal l -> normal (scale_lc l c).
  Proof.
    induction 1 as [|u r S IH F]; [constructor|]. cbn [scale_lc map]. constructor; [exact IH|]. apply Forall_forall. intros x Hx. apply in_map_iff in Hx.
    destruct Hx as (y & <- & Hy). exact (proj1 (Forall_forall _ _) F y Hy).
  Qed.

  (** Adding one term: both searches return an index that is in range, and on ordered terms the right one. *)
  Definition located l (v : var) (r : bool * nat) : Prop :=
    match r with
    | (true, i) => exists t, nth_error l i = Some t /\ snd t = v
    | (false, i) => (i <= length l)%nat /\ (normal l -> Forall (fun t => before (snd t) v) (firstn i l) /\ Forall (fun t => before v (snd t)) (skipn i l))
    end.
  Lemma scan_spec v : forall l i p, Forall (fun t : term K => before (snd t) v) p -> length p = i ->
    (let r := scan_location l v i in (fst r = true -> exists t, nth_error (p ++ l) (snd r) = Some t /\ snd t = v) /\
       (fst r = false -> (i <= snd r <= i + length l)%nat /\ (normal l ->
          Forall (fun t => before (snd t) v) (firstn (snd r) (p ++ l)) /\ Forall (fun t => before v (snd t)) (skipn (snd r) (p ++ l))))).
  Proof.
    induction l as [|t l IH]; intros i p Fp Hp; cbn [scan_location].
    - cbn [fst snd]. split; [discriminate|]. intros _. split; [cbn [length]; lia|]. intros _. rewrite app_nil_r, <- Hp, firstn_all, skipn_all. split; [exact Fp|constructor].
    - destruct (var_eqb (snd t) v) eqn:E; [|destruct (var_gtb (snd t) v) eqn:G].
      + cbn [fst snd]. split; [|discriminate]. intros _. exists t. rewrite nth_error_app2 by lia. rewrite Hp, Nat.sub_diag. split; [reflexivity|apply var_eqb_spec, E].
      + cbn [fst snd]. split; [discriminate|]. intros _. split; [lia|]. intros N. apply var_gtb_spec in G.
        rewrite firstn_app, skipn_app, Hp, Nat.sub_diag, <- Hp, firstn_all, skipn_all. cbn [firstn skipn app]. rewrite app_nil_r. split; [exact Fp|].
        inversion N as [|? ? N' F]; subst. constructor; [exact G|]. apply Forall_forall. intros y Hy. exact (before_trans _ _ _ G (proj1 (Forall_forall _ _) F y Hy)).
      + assert (B : before (snd t) v).
        { destruct (before_total (snd t) v) as [B|[B|B]]; [exact B|apply var_eqb_spec in B; congruence|apply var_gtb_spec in B; congruence]. }
        specialize (IH (S i) (p ++ [t])). cbn zeta in *. rewrite <- app_assoc in IH. cbn [app] in IH.
        destruct IH as [H1 H2]; [apply Forall_app; split; [exact Fp|constructor; [exact B|constructor]]|rewrite app_length; cbn [length]; lia|].
        split; [exact H1|]. intros H. destruct (H2 H) as [H3 H4]. split; [cbn [length]; lia|]. intros N. apply H4. inversion N; assumption.
  Qed.
  Lemma normal_nth l : normal l -> forall i j t u, (i < j)%nat -> nth_error l i = Some t -> nth_error l j = Some u -> before (snd t) (snd u).
  Proof.
    induction 1 as [|x l S IH F]; intros i j t u Hij Ht Hu; [destruct i; discriminate Ht|]. destruct j as [|j]; [lia|]. cbn [nth_error] in Hu. destruct i as [|i].
    - injection Ht as <-. exact (proj1 (Forall_forall _ _) F u (nth_error_In _ _ Hu)).
    - cbn [nth_error] in Ht. apply (IH i j); [lia|assumption|assumption].
  Qed.
  Lemma firstn_forall (P : term K -> Prop) l : forall i, (forall j t, (j < i)%nat -> nth_error l j = Some t -> P t) -> Forall P (firstn i l).
  Proof.
    induction l as [|x l IH]; intros i H; [rewrite firstn_nil; constructor|]. destruct i as [|i]; [constructor|]. cbn [firstn]. constructor.
    - apply (H 0%nat); [lia|reflexivity].
    - apply IH. intros j t Hj Ht. apply (H (S j)); [lia|exact Ht].
  Qed.
  Lemma skipn_forall (P : term K -> Prop) l : forall i, (forall j t, (i <= j)%nat -> nth_error l j = Some t -> P t) -> Forall P (skipn i l).
  Proof.
    induction l as [|x l IH]; intros i H; [rewrite skipn_nil; constructor|]. destruct i as [|i].
    - cbn [skipn]. constructor; [apply (H 0%nat); [lia|reflexivity]|]. change (Forall P (skipn 0 l)). apply IH. intros j t Hj Ht. apply (H (S j)); [lia|exact Ht].
    - cbn [skipn]. apply IH. intros j t Hj Ht. apply (H (S j)); [lia|exact Ht].
  Qed.
  Lemma binary_search_spec l v : forall fuel left right, (left <= right <= length l)%nat -> (right - left <= fuel)%nat ->
    (normal l -> forall j t, (j < left)%nat -> nth_error l j = Some t -> before (snd t) v) ->
    (normal l -> forall j t, (right <= j)%nat -> nth_error l j = Some t -> before v (snd t)) ->
    exists r : bool * nat, binary_search fuel l v left right (right - left) = Some r /\ located l v r.
  Proof.
    assert (stop : forall left right, (left <= right <= length l)%nat -> ~ (left < right)%nat ->
      (normal l -> forall j t, (j < left)%nat -> nth_error l j = Some t -> before (snd t) v) ->
      (normal l -> forall j t, (right <= j)%nat -> nth_error l j = Some t -> before v (snd t)) -> located l v (false, left)).
    { intros a b Hab Hlt HL HR. cbn. split; [lia|]. intros N. split; [apply firstn_forall; intros j t Hj; apply HL; assumption|].
      apply skipn_forall. intros j t Hj. apply HR; [exact N|lia]. }
    induction fuel as [|fuel IH]; intros a b Hab Hf HL HR; cbn [binary_search].
    - rewrite (proj2 (Nat.ltb_ge a b)) by lia. eexists. split; [reflexivity|]. apply (stop a b); [exact Hab|lia|exact HL|exact HR].
    - destruct (Nat.ltb_spec a b) as [Lt|Ge]; [|eexists; split; [reflexivity|apply (stop a b); [exact Hab|lia|exact HL|exact HR]]].
      set (mid := (a + Nat.div (b - a) 2)%nat).
      assert (Hm : (a <= mid < b)%nat) by (unfold mid; pose proof (Nat.div_lt (b - a) 2 ltac:(lia) ltac:(lia)); lia).
      destruct (nth_error l mid) as [t|] eqn:E; [|apply nth_error_None in E; lia].
      destruct (var_ltb (snd t) v) eqn:T1; [|destruct (var_gtb (snd t) v) eqn:T2].
      + apply var_ltb_spec in T1. apply IH; [lia|lia| |exact HR]. intros N j u Hj Hu. destruct (Nat.eq_dec j mid) as [->|Ne]; [congruence|].
        apply (before_trans _ (snd t)); [|exact T1]. apply (normal_nth l N j mid); [lia|exact Hu|exact E].
      + apply var_gtb_spec in T2. apply IH; [lia|lia|exact HL|]. intros N j u Hj Hu. destruct (Nat.eq_dec j mid) as [->|Ne]; [congruence|].
        apply (before_trans _ (snd t)); [exact T2|]. apply (normal_nth l N mid j); [lia|exact E|exact Hu].
      + eexists. split; [reflexivity|]. exists t. split; [exact E|].
        destruct (before_total (snd t) v) as [B|[B|B]]; [apply var_ltb_spec in B; congruence|exact B|apply var_gtb_spec in B; congruence].
  Qed.
  Lemma location_spec l v : exists r : bool * nat, get_var_location l v = Some r /\ located l v r.
  Proof.
    unfold get_var_location. destruct (Nat.ltb (length l) 6).
    - eexists. split; [reflexivity|]. destruct (scan_spec v l 0 [] (Forall_nil _) eq_refl) as [H1 H2]. cbn [app] in *.
      destruct (scan_location l v 0) as [[|] i]; cbn [fst snd] in *; cbn [located]; [apply H1; reflexivity|].
      destruct (H2 eq_refl) as [H3 H4]. split; [lia|exact H4].
    - pose proof (binary_search_spec l v (length l) 0 (length l)) as H. rewrite Nat.sub_0_r in H. apply H; [lia|lia|intros _ j t Hj; lia|].
      intros _ j t Hj Ht. apply nth_error_None in Hj. congruence.
  Qed.
  Lemma set_at_split {A} (l : list A) : forall i x y, nth_error l i = Some x -> l = firstn i l ++ x :: skipn (S i) l /\ set_at l i y = firstn i l ++ y :: skipn (S i) l.
  Proof.
    induction l as [|z l IH]; intros i x y H; [destruct i; discriminate H|]. destruct i as [|i].
    - injection H as ->. split; reflexivity.
    - cbn [nth_error] in H. destruct (IH i x y H) as [H1 H2]. cbn [firstn skipn set_at app]. split; f_equal; assumption.
  Qed.
  Lemma sorted_app_r {A} (R : A -> A -> Prop) (a b : list A) : StronglySorted R (a ++ b) -> StronglySorted R b.
  Proof. induction a as [|x a IH]; intros S; [exact S|]. inversion S; subst. apply IH. assumption. Qed.
  Lemma sorted_app_iff {A} (R : A -> A -> Prop) (a b : list A) :
    StronglySorted R (a ++ b) <-> StronglySorted R a /\ StronglySorted R b /\ Forall (fun x => Forall (R x) b) a.
  Proof.
    induction a as [|x a IH]; cbn [app]; [split; [intros S; repeat split; [constructor|exact S|constructor]|tauto]|]. split.
    - intros S. inversion S as [|? ? S' F]; subst. apply IH in S'. destruct S' as (S1 & S2 & S3). apply Forall_app in F. destruct F as [F1 F2].
      repeat split; [constructor; assumption|exact S2|constructor; assumption].
    - intros (S1 & S2 & S3). inversion S1 as [|? ? S1' F1]; subst. inversion S3 as [|? ? F2 F3]; subst.
      constructor; [apply IH; tauto|]. apply Forall_app. split; assumption.
  Qed.
  Lemma add_term_spec I W L l (t : term K) : exists l', add_term l t = Some l' /\ value I W L l' = value I W L l + fst t * val I W L (snd t) /\ (normal l -> normal l').
  Proof.
    unfold add_term. destruct (location_spec l (snd t)) as ([[|] i] & -> & H); cbn [located] in H.
    - destruct H as (u & Hu & V). rewrite Hu. eexists. split; [reflexivity|].
      destruct (set_at_split l i u (fst u + fst t, snd u) Hu) as [E1 E2]. rewrite E2. set (p := firstn i l) in *. set (q := skipn (S i) l) in *. clearbody p q. subst l.
      split; [rewrite !value_app, !value_cons; cbn [fst snd]; rewrite V; ring|].
      intros N. apply sorted_app_iff in N. destruct N as (N1 & N2 & N3). apply sorted_app_iff. repeat split; [exact N1| |].
      + inversion N2; subst. constructor; assumption.
      + apply Forall_forall. intros x Hx. apply (proj1 (Forall_forall _ _)) with (x := x) in N3; [|exact Hx]. inversion N3; subst. constructor; assumption.
    - destruct H as [Hi HN]. eexists. split; [reflexivity|]. split.
      + rewrite value_app, value_cons. rewrite <- (firstn_skipn i l) at 3. rewrite value_app. ring.
      + intros N. destruct (HN N) as [F1 F2]. assert (N' := N). rewrite <- (firstn_skipn i l) in N'. apply sorted_app_iff in N'. destruct N' as (N1 & N2 & N3).
        apply sorted_app_iff. repeat split; [exact N1|constructor; assumption|]. apply Forall_forall. intros x Hx. constructor; [exact (proj1 (Forall_forall _ _) F1 x Hx)|exact (proj1 (Forall_forall _ _) N3 x Hx)].
  Qed.
  Lemma sub_term_spec I W L l (t : term K) : exists l', sub_term l t = Some l' /\ value I W L l' = value I W L l - fst t * val I W L (snd t) /\ (normal l -> normal l').
  Proof.
    destruct (add_term_spec I W L l (neg_term t)) as (l' & H1 & H2 & H3). exists l'. split; [exact H1|]. split; [|exact H3].
    rewrite H2. cbn [neg_term fst snd]. ring.
  Qed.
End Lc.
