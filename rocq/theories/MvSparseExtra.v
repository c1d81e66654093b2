(** Packaging and counterexamples for sparse multivariate polynomials. *)
From Coq Require Import ZArith NArith List Bool Lia Field Sorted.
From Verif Require Import Field MvSparseModel MvSparseSpec MvSparseProof.
Import ListNotations.

Section Extra.
  Variable K : fld.
  Add Field Kf2 : (fld_theory K).
  Open Scope fld_scope.
  Notation term := (list (N * N) * K)%type.
  Notation val := (value K).

  (** ** Points that are too short. *)
  Lemma map_out_undef {A B} (f : A -> out B) l x : (forall y, f y <> Abort) -> In x l -> f x = Undef -> map_out f l = Undef.
  Proof.
    intros HA. induction l as [|y r IH]; intros Hx E; [destruct Hx |]. cbn [map_out].
    destruct Hx as [-> | Hx]; [rewrite E; reflexivity |].
    pose proof (HA y). destruct (f y); cbn [bind]; [rewrite IH by assumption; reflexivity | contradiction | reflexivity].
  Qed.
  Lemma map_out_no_abort {A B} (f : A -> out B) l : (forall y, f y <> Abort) -> map_out f l <> Abort.
  Proof.
    intros HA. induction l as [|y r IH]; [discriminate |]. cbn [map_out]. pose proof (HA y).
    destruct (f y); cbn [bind]; [| contradiction | discriminate]. destruct (map_out f r); cbn [bind]; try discriminate. contradiction.
  Qed.
  Lemma serial_no_abort (pts : list K) l : lit_serial K pts l <> Abort.
  Proof.
    unfold lit_serial. generalize (1 : K). induction l as [|e r IH]; intros acc; [discriminate |]. cbn [fold_out].
    destruct (nth_error pts (N.to_nat (fst e))); cbn [bind]; [apply IH | discriminate].
  Qed.
  Variable chunks : forall A : Type, list A -> list (list A).
  Hypothesis Hchunks : forall A l, concat (chunks A l) = l.
  Lemma lit_evaluate_no_abort (pts : list K) l : lit_evaluate K chunks pts l <> Abort.
  Proof.
    unfold lit_evaluate. pose proof (map_out_no_abort (lit_serial K pts) (chunks _ l) (serial_no_abort pts)).
    destruct (map_out _ _); cbn [bind]; congruence.
  Qed.
  Lemma lit_evaluate_undef (pts : list K) l e : In e l -> (length pts <= N.to_nat (fst e))%nat ->
    lit_evaluate K chunks pts l = Undef.
  Proof.
    intros He Hl. unfold lit_evaluate. rewrite <- (Hchunks _ l) in He. apply in_concat in He. destruct He as (c & Hc & He).
    rewrite (map_out_undef _ _ c); [reflexivity | apply serial_no_abort | exact Hc | apply (serial_undef K pts c e); assumption].
  Qed.
  Lemma terms_no_abort (pts : list K) ts : terms_serial K chunks pts ts <> Abort.
  Proof.
    unfold terms_serial. generalize (0 : K). induction ts as [|t r IH]; intros acc; [discriminate |]. cbn [fold_out].
    pose proof (lit_evaluate_no_abort pts (fst t)). destruct (lit_evaluate K chunks pts (fst t)); cbn [bind]; [apply IH | contradiction | discriminate].
  Qed.
  Lemma terms_undef (pts : list K) ts (t : term) e : In t ts -> In e (fst t) -> (length pts <= N.to_nat (fst e))%nat ->
    terms_serial K chunks pts ts = Undef.
  Proof.
    intros Ht He Hl. unfold terms_serial. generalize (0 : K). induction ts as [|t' r IH]; intros acc; [destruct Ht |]. cbn [fold_out].
    destruct Ht as [-> | Ht].
    - rewrite (lit_evaluate_undef pts (fst t) e He Hl). reflexivity.
    - pose proof (lit_evaluate_no_abort pts (fst t')).
      destruct (lit_evaluate K chunks pts (fst t')); cbn [bind]; [apply IH, Ht | contradiction | reflexivity].
  Qed.
  Lemma evaluate_undef n ts (pts : list K) (t : term) e : (length pts <= n)%nat -> In t ts -> In e (fst t) ->
    (length pts <= N.to_nat (fst e))%nat -> evaluate K chunks (mkpoly K (Some n) ts) pts = Undef.
  Proof.
    intros Hn Ht He Hl. unfold evaluate. cbn [num_vars MvSparseModel.terms]. destruct (Nat.leb_spec (length pts) n); [| lia].
    destruct ts as [|t0 r]; [destruct Ht |]. rewrite <- (Hchunks _ (t0 :: r)) in Ht. apply in_concat in Ht. destruct Ht as (c & Hc & Ht).
    rewrite (map_out_undef _ _ c); [reflexivity | apply terms_no_abort | exact Hc | apply (terms_undef pts c t e); assumption].
  Qed.
  Lemma short_point n (pts : list K) : (length pts < n)%nat -> exists ts, variables_below K n ts /\
    evaluate K chunks (mkpoly K (Some n) ts) pts = Undef.
  Proof.
    intros H. exists [([(N.of_nat (length pts), 1%N)], 1)]. split.
    - intros t e [<- | []] [<- | []]. cbn [fst]. rewrite Nat2N.id. exact H.
    - eapply evaluate_undef; [lia | left; reflexivity | left; reflexivity |]. cbn [fst]. rewrite Nat2N.id. lia.
  Qed.

  (** ** Negation. *)
  Variable clt : K -> K -> bool.
  Variable max_degree : Z.
  Lemma map_last {A B} (f : A -> B) l : last_opt (map f l) = option_map f (last_opt l).
  Proof. induction l as [|x [|y r] IH]; [reflexivity | reflexivity |]. exact IH. Qed.
  Lemma neg_degree ts : degree K (map (term_neg K) ts) = degree K ts.
  Proof.
    unfold degree. assert (E : is_constant K (map (term_neg K) ts) = is_constant K ts) by (destruct ts as [|t [|u r]]; reflexivity).
    rewrite E, map_last. destruct (is_constant K ts), (last_opt ts); reflexivity.
  Qed.
  Lemma negate_ok n ts p : create K max_degree n ts = Ret p ->
    exists q, negate K max_degree p = Ret q /\ num_vars K q = num_vars K p /\ terms K q = terms K (negate_in_place K p) /\
    forall x, val x (terms K q) = - val x (terms K p).
  Proof.
    unfold create. intros E. destruct (degree K ts) as [d | |] eqn:D; cbn [bind] in E; try discriminate.
    destruct (Z.leb d max_degree) eqn:L; [| discriminate]. injection E as <-. unfold negate. cbn [num_vars MvSparseModel.terms].
    destruct (is_zero K _) eqn:Z.
    - unfold is_zero in Z. cbn [MvSparseModel.terms] in Z. destruct ts; [| discriminate]. discriminate D.
    - unfold create. rewrite neg_degree, D. cbn [bind]. rewrite L. eexists. split; [reflexivity |]. split; [reflexivity |]. split; [reflexivity |].
      intros x. apply val_neg.
  Qed.

  (** ** Addition. *)
  Lemma add_in_place_ok neg n ts m us : ts <> [] -> us <> [] -> proper K ts -> proper K us -> univariate K ts -> univariate K us ->
    match add_in_place K max_degree neg (mkpoly K n ts) (mkpoly K m us) with
    | Ret c => num_vars K c = n /\ (forall x, val x (terms K c) = if neg then val x ts - val x us else val x ts + val x us) /\
               (forall t, In t (terms K c) -> snd t <> 0)
    | Undef => forall x, (if neg then val x ts - val x us else val x ts + val x us) = 0
    | Abort => False
    end.
  Proof.
    intros Ht Hu Pt Pu Ut Uu. unfold add_in_place, is_zero. cbn [MvSparseModel.terms num_vars].
    destruct ts as [|t ts']; [contradiction |]. destruct us as [|u us']; [contradiction |].
    pose proof (do_add_ok K neg _ _ Pt Pu (univariate_clear K _ _ Ut Uu)) as D.
    destruct (do_add K neg (t :: ts') (u :: us')) as [c | |]; cbn [bind].
    - cbn [num_vars MvSparseModel.terms]. destruct D as [D1 D2]. split; [reflexivity |]. split; [| exact D2]. intros x. rewrite D1.
      destruct neg; cbn [signed]; ring.
    - exact D.
    - intros x. rewrite <- (D x). destruct neg; cbn [signed]; ring.
  Qed.
  Lemma add_any_ok neg n ts m us : ts <> [] -> us <> [] -> proper K ts -> proper K us ->
    (forall ta tb, In ta ts -> In tb us -> lit_lt (fst ta) (fst tb) = Ret false -> lit_lt (fst tb) (fst ta) = Ret false ->
       same_monomial (fst ta) (fst tb)) ->
    match add_in_place K max_degree neg (mkpoly K n ts) (mkpoly K m us) with
    | Ret c => num_vars K c = n /\ (forall x, val x (terms K c) = if neg then val x ts - val x us else val x ts + val x us)
    | Undef => forall x, (if neg then val x ts - val x us else val x ts + val x us) = 0
    | Abort => False
    end.
  Proof.
    intros Ht Hu Pt Pu Cl. unfold add_in_place, is_zero. cbn [MvSparseModel.terms num_vars].
    destruct ts as [|t ts']; [contradiction |]. destruct us as [|u us']; [contradiction |].
    pose proof (do_add_ok K neg _ _ Pt Pu Cl) as D.
    destruct (do_add K neg (t :: ts') (u :: us')) as [c | |]; cbn [bind].
    - cbn [num_vars MvSparseModel.terms]. destruct D as [D1 D2]. split; [reflexivity |]. intros x. rewrite D1.
      destruct neg; cbn [signed]; ring.
    - exact D.
    - intros x. rewrite <- (D x). destruct neg; cbn [signed]; ring.
  Qed.
  Definition x0x2 : list (N * N) := [(0, 1); (2, 1)]%N.
  Definition x1x2 : list (N * N) := [(1, 1); (2, 1)]%N.
  Definition pt011 (v : N) : K := if N.eqb v 0 then 0 else 1.
  Lemma add_wrong : (1 + 1 : K) <> 0 -> (2 <= max_degree)%Z -> exists a b c,
    create_checked K clt max_degree 3 [(x0x2, 1)] = Ret a /\ create_checked K clt max_degree 3 [(x1x2, 1)] = Ret b /\
    els_sorted x0x2 = true /\ els_sorted x1x2 = true /\
    add_in_place K max_degree false a b = Ret c /\ val pt011 (terms K c) <> val pt011 (terms K a) + val pt011 (terms K b).
  Proof.
    intros H2 Hd.
    assert (C : forall l, (l = x0x2 \/ l = x1x2) -> create_checked K clt max_degree 3 [(l, 1)] = Ret (mkpoly K (Some 3%nat) [(l, 1)])).
    { intros l Hl. unfold create_checked, create, degree, is_constant. cbn [terms_sorted bind last_opt fst].
      replace (lit_degree l) with 2%Z by (destruct Hl; subst; reflexivity). cbn [Z.eqb]. cbn [bind].
      destruct (Z.leb_spec 2 max_degree); [reflexivity | lia]. }
    eexists _, _, _. split; [apply C; auto |]. split; [apply C; auto |]. split; [reflexivity |]. split; [reflexivity |].
    unfold add_in_place, is_zero. cbn [MvSparseModel.terms num_vars]. unfold do_add. rewrite loop_cons.
    change (lit_lt (fst (x0x2, (1 : K))) (fst (x1x2, (1 : K)))) with (@Ret bool false).
    change (lit_lt (fst (x1x2, (1 : K))) (fst (x0x2, (1 : K)))) with (@Ret bool false). cbn [bind snd fst].
    apply feqb_neq in H2. rewrite H2. cbn [negb add_loop cons_out bind].
    unfold compact. cbn [merge_loop take_constants fst].
    replace (Z.eqb (lit_degree x0x2) 0) with false by reflexivity. cbn [bind].
    split; [reflexivity |]. cbn [MvSparseModel.terms]. rewrite filter_value. unfold value, monomial_value. cbn.
    change (Pos.to_nat 1) with 1%nat. cbn [fpow].
    intros E. apply (f1_neq_0 K). match type of E with _ = ?r => transitivity r; [ring | rewrite <- E; ring] end.
  Qed.
  Lemma self_difference n ts : ts <> [] -> (forall t, In t ts -> fst t <> []) ->
    add_in_place K max_degree true (mkpoly K n ts) (mkpoly K n ts) = Undef /\
    add K max_degree true (mkpoly K n ts) (mkpoly K n ts) = Undef.
  Proof.
    intros Hn Hl. unfold add_in_place, add, is_zero, do_add. cbn [MvSparseModel.terms]. rewrite loop_self by exact Hl.
    destruct ts; [contradiction |]. split; reflexivity.
  Qed.
  Lemma sum_not_evaluated neg a b c pts : terms K a <> [] -> terms K b <> [] -> add K max_degree neg a b = Ret c ->
    evaluate K chunks c pts = Undef.
  Proof.
    intros Ha Hb E. unfold add, is_zero in E. destruct (terms K a); [contradiction |]. destruct (terms K b); [contradiction |].
    destruct (do_add _ _ _ _); cbn [bind] in E; try discriminate. injection E as <-. reflexivity.
  Qed.

  (** ** Degrees. *)
  Lemma degree_wrong : (1 <= max_degree)%Z -> exists p,
    create_checked K clt max_degree 2 [([(0, 1000000)%N], 1); ([(1, 1)%N], 1)] = Ret p /\ degree K (terms K p) = Ret 1%Z.
  Proof.
    intros H. eexists. unfold create_checked, create. cbn [terms_sorted]. unfold term_lt. cbn [fst].
    change (lit_neqb [(1, 1)%N] [(0, 1000000)%N]) with true. cbn iota.
    change (lit_lt [(1, 1)%N] [(0, 1000000)%N]) with (@Ret bool false). cbn [bind].
    change (degree K [([(0, 1000000)%N], 1); ([(1, 1)%N], 1)]) with (@Ret Z 1%Z). cbn [bind].
    destruct (Z.leb_spec 1 max_degree); [| lia]. split; reflexivity.
  Qed.
  Lemma fpow_0 n : n <> O -> (0 : K) ^ n = 0.
  Proof. destruct n; [contradiction |]. intros _. cbn [fpow]. ring. Qed.
  Lemma huge_wrong :
    degree K [([(0, 4294967296)%N], 1)] = Ret 0%Z /\
    exists ts, compact K [([(0, 4294967296)%N], 1)] = Ret ts /\
    val (fun _ => 0) ts = 1 /\ val (fun _ => 0) [([(0, 4294967296)%N], 1)] = 0.
  Proof.
    split; [reflexivity |]. unfold compact. cbn [merge_loop take_constants fst snd].
    change (Z.eqb (lit_degree [(0, 4294967296)%N]) 0) with true. cbn iota.
    eexists. split; [reflexivity |]. rewrite filter_value. split.
    - rewrite val_cons. cbn [term_constant fst snd]. rewrite mon_const by reflexivity. cbn. ring.
    - rewrite val_cons. unfold monomial_value. cbn [map fst snd fprod]. rewrite fpow_0 by lia.
      change (value K (fun _ : N => 0) []) with (0 : K). ring.
  Qed.
  Lemma degree_last ts : forall v, ts <> [] -> (forall t, In t ts -> exists e, fst t = [(v, e)] /\ (e < 2147483648)%N) ->
    terms_sorted K clt ts = Ret true ->
    exists t e, last_opt ts = Some t /\ fst t = [(v, e)] /\ (e < 2147483648)%N /\
      (forall t' e', In t' ts -> fst t' = [(v, e')] -> (e' <= e)%N).
  Proof.
    induction ts as [|a r IH]; intros v Hn Hu Hs; [contradiction |].
    destruct (Hu a (or_introl eq_refl)) as (ea & Ea & La). destruct r as [|b r].
    - exists a, ea. split; [reflexivity |]. split; [exact Ea |]. split; [exact La |].
      intros t' e' [<- | []] E'. rewrite Ea in E'. injection E' as <-. lia.
    - cbn [terms_sorted] in Hs. destruct (Hu b (or_intror (or_introl eq_refl))) as (eb & Eb & Lb).
      destruct (term_lt K clt b a) as [c | |] eqn:Lt; cbn [bind] in Hs; try discriminate. destruct c; [discriminate |].
      destruct (IH v) as (t & e & H1 & H2 & H3 & H4); [discriminate | intros t Ht; apply Hu; right; exact Ht | exact Hs |].
      exists t, e. split; [exact H1 |]. split; [exact H2 |]. split; [exact H3 |].
      intros t' e' [<- | Ht'] E'; [| apply (H4 t' e'); assumption].
      rewrite Ea in E'. injection E' as <-. assert (Hb := H4 b eb (or_introl eq_refl) Eb).
      destruct (N.le_gt_cases ea eb); [lia |]. exfalso. unfold term_lt in Lt. rewrite Ea, Eb in Lt.
      assert (Nq : lit_neqb [(v, eb)] [(v, ea)] = true).
      { unfold lit_neqb. rewrite !lit_degree_ok by (cbn [total_degree fold_right snd]; lia). cbn [total_degree fold_right snd].
        apply andb_true_iff. split.
        - apply orb_true_iff. right. apply negb_true_iff, Z.eqb_neq. lia.
        - apply negb_true_iff. cbn [els_eqb]. unfold el_eqb. cbn [fst snd]. rewrite N.eqb_refl.
          destruct (N.eqb_spec eb ea); [lia | reflexivity]. }
      rewrite Nq in Lt. unfold lit_lt in Lt. cbn [last_opt length] in Lt. unfold el_eqb, el_lt in Lt. cbn [fst snd] in Lt.
      rewrite N.eqb_refl in Lt. destruct (N.eqb_spec eb ea); [lia |]. cbn [andb negb] in Lt.
      destruct (N.ltb_spec eb ea) as [Q | Q]; [| lia]. destruct (negb _ && negb _); discriminate.
  Qed.
  Lemma degree_univariate ts v : ts <> [] -> (forall t, In t ts -> exists e, fst t = [(v, e)] /\ (e < 2147483648)%N) ->
    terms_sorted K clt ts = Ret true ->
    exists d, degree K ts = Ret (Z.of_N d) /\ (exists t, In t ts /\ fst t = [(v, d)]) /\
      (forall t e, In t ts -> fst t = [(v, e)] -> (e <= d)%N).
  Proof.
    intros Hn Hu Hs. destruct (degree_last ts v Hn Hu Hs) as (t & e & H1 & H2 & H3 & H4).
    assert (Hin : In t ts).
    { clear -H1. induction ts as [|a [|b r] IH]; [discriminate | injection H1 as <-; left; reflexivity |]. right. apply IH, H1. }
    assert (D : lit_degree (fst t) = Z.of_N e).
    { rewrite H2, lit_degree_ok by (cbn [total_degree fold_right snd]; lia). cbn [total_degree fold_right snd]. lia. }
    exists e. split; [| split; [exists t; split; assumption | exact H4]].
    unfold degree. rewrite H1, D. destruct (is_constant K ts) eqn:C; [| reflexivity].
    destruct ts as [|a [|b r]]; try discriminate. injection H1 as <-. cbn [is_constant] in C. rewrite D in C.
    apply Z.eqb_eq in C. rewrite C. reflexivity.
  Qed.

  (** ** Lookup. *)
  Lemma lookup_wrong : exists p, (2 <= max_degree)%Z ->
    create_checked K clt max_degree 3 [(x0x2, 1); (x1x2, 1)] = Ret p /\ In (x1x2, 1) (terms K p) /\
    coefficient_at K (terms K p) x1x2 = Ret 0.
  Proof.
    exists (mkpoly K (Some 3%nat) [(x0x2, 1); (x1x2, 1)]). intros H. split; [| split; [right; left; reflexivity | reflexivity]].
    unfold create_checked, create. cbn [terms_sorted]. unfold term_lt. cbn [fst].
    change (lit_neqb x1x2 x0x2) with true. cbn iota. change (lit_lt x1x2 x0x2) with (@Ret bool false). cbn [bind].
    change (degree K [(x0x2, 1); (x1x2, 1)]) with (@Ret Z 2%Z). cbn [bind].
    destruct (Z.leb_spec 2 max_degree); [reflexivity | lia].
  Qed.
  Lemma lookup_found ts (l : list (N * N)) (c : K) : l <> [] -> StronglySorted (fun t u : term => lit_lt (fst t) (fst u) = Ret true) ts -> In (l, c) ts ->
    coefficient_at K ts l = Ret c.
  Proof.
    intros Hl Hs Hin. unfold coefficient_at.
    assert (E : lower_bound K ts l = Ret (Some (l, c))).
    { induction Hs as [|t r Hs IH Hf]; [destruct Hin |]. cbn [lower_bound]. destruct Hin as [-> | Hin].
      - cbn [fst]. rewrite lit_lt_irrefl by exact Hl. reflexivity.
      - rewrite Forall_forall in Hf. pose proof (Hf _ Hin) as Q. cbn [fst] in Q. rewrite Q. cbn [bind]. apply IH, Hin. }
    rewrite E. cbn [bind fst snd]. unfold lit_eqb. replace (els_eqb l l) with true by (symmetry; apply els_eqb_eq; reflexivity).
    rewrite orb_true_r. reflexivity.
  Qed.
  Lemma lower_bound_in ts l t : lower_bound K ts l = Ret (Some t) -> In t ts.
  Proof.
    induction ts as [|u r IH]; cbn [lower_bound]; [discriminate |]. intros H.
    destruct (lit_lt (fst u) l) as [b | |]; cbn [bind] in H; try discriminate. destruct b; [right; apply IH, H | injection H as <-; left; reflexivity].
  Qed.
  Lemma lookup_sound ts l c : proper K ts -> (total_degree l < 2 ^ 31)%Z -> coefficient_at K ts l = Ret c -> c <> 0 ->
    exists l', same_monomial l' l /\ In (l', c) ts.
  Proof.
    intros Hp Hl E Hc. unfold coefficient_at in E. destruct (lower_bound K ts l) as [[t |] | |] eqn:L; cbn [bind] in E; try discriminate.
    - apply lower_bound_in in L. destruct (lit_eqb (fst t) l) eqn:Q; [| congruence]. injection E as <-.
      exists (fst t). split; [apply lit_eqb_same in Q; [exact Q | apply (Hp t L) | exact Hl] |]. destruct t; exact L.
    - congruence.
  Qed.
End Extra.
