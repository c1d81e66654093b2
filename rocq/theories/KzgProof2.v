(** Proofs about the grouping of openings. *)
From Coq Require Import ZArith Lia List Bool Arith Sorted Permutation Ring Field Field_theory.
From Verif Require Import Field PolySpec PolyModel PolyProof4 KzgModel KzgSpec.
Import ListNotations.

Section Firsts.
  Variables (Key : Type) (eqb : Key -> Key -> bool).
  Hypothesis eqb_eq : forall a b, eqb a b = true <-> a = b.
  Definition firsts (l : list Key) : list Key := fold_left (fun acc k => if existsb (eqb k) acc then acc else acc ++ [k]) l [].
  Lemma firsts_snoc l k : firsts (l ++ [k]) = if existsb (eqb k) (firsts l) then firsts l else firsts l ++ [k].
  Proof. unfold firsts. rewrite fold_left_app. reflexivity. Qed.
  Lemma exists_in k l : existsb (eqb k) l = true <-> In k l.
  Proof.
    rewrite existsb_exists. split.
    - intros (x & Hx & E). apply eqb_eq in E. subst x. exact Hx.
    - intros H. exists k. split; [exact H|]. apply eqb_eq. reflexivity.
  Qed.
  Lemma firsts_in l k : In k (firsts l) <-> In k l.
  Proof.
    induction l as [|a l IH] using rev_ind; [reflexivity|]. rewrite firsts_snoc, in_app_iff. cbn [In].
    destruct (existsb (eqb a) (firsts l)) eqn:E.
    - apply exists_in in E. rewrite IH. split; [tauto|]. intros [H|[<-|[]]]; [exact H|]. apply IH. exact E.
    - rewrite in_app_iff, IH. cbn [In]. tauto.
  Qed.
  Lemma firsts_nodup l : NoDup (firsts l).
  Proof.
    induction l as [|a l IH] using rev_ind; [constructor|]. rewrite firsts_snoc. destruct (existsb (eqb a) (firsts l)) eqn:E; [exact IH|].
    apply (Permutation_NoDup (Permutation_cons_append (firsts l) a)). constructor; [|exact IH]. intros H. apply exists_in in H. congruence.
  Qed.
  Lemma firsts_length l : length (firsts l) <= length l.
  Proof.
    clear eqb_eq. induction l as [|a l IH] using rev_ind; [reflexivity|]. rewrite firsts_snoc, app_length. cbn [length]. destruct (existsb (eqb a) (firsts l)); [lia|].
    rewrite app_length. cbn [length]. lia.
  Qed.
  Lemma firsts_cons a l : exists r, firsts (a :: l) = a :: r.
  Proof.
    induction l as [|b l IH] using rev_ind; [exists []; reflexivity|]. change (a :: l ++ [b]) with ((a :: l) ++ [b]). rewrite firsts_snoc.
    destruct IH as (r & ->). destruct (existsb (eqb b) (a :: r)); [exists r; reflexivity|]. exists (r ++ [b]). reflexivity.
  Qed.

  (** Grouping with find_if and push_back groups by key, in the order of first appearance. *)
  Variables (O A : Type) (key : O -> Key) (mk : Key -> list O -> A) (test : O -> A -> bool) (update : O -> A -> A) (fresh : O -> A).
  Hypothesis test_mk : forall o k l, test o (mk k l) = eqb (key o) k.
  Hypothesis update_mk : forall o k l, update o (mk k l) = mk k (l ++ [o]).
  Hypothesis fresh_mk : forall o, fresh o = mk (key o) [o].
  Definition group_of (os : list O) (k : Key) : A := mk k (filter (fun o => eqb (key o) k) os).
  Lemma group_snoc_other os o k : k <> key o -> group_of (os ++ [o]) k = group_of os k.
  Proof.
    intros H. unfold group_of. rewrite filter_app. cbn [filter]. destruct (eqb (key o) k) eqn:E; [apply eqb_eq in E; congruence|]. rewrite app_nil_r. reflexivity.
  Qed.
  Lemma upsert_group os o : forall ks, NoDup ks -> upsert (test o) (update o) (fresh o) (map (group_of os) ks) =
    if existsb (eqb (key o)) ks then map (group_of (os ++ [o])) ks else map (group_of os) ks ++ [fresh o].
  Proof.
    induction ks as [|k ks IH]; intros Hn; [reflexivity|]. inversion Hn as [|? ? Hk Hn']; subst. cbn [map upsert existsb].
    unfold group_of at 1. rewrite test_mk. destruct (eqb (key o) k) eqn:E; cbn [orb].
    - apply eqb_eq in E. f_equal.
      + unfold group_of. rewrite filter_app. cbn [filter]. rewrite (proj2 (eqb_eq (key o) k) E). apply update_mk.
      + apply map_ext_in. intros x Hx. symmetry. apply group_snoc_other. intros ->. apply Hk. congruence.
    - rewrite (IH Hn'). destruct (existsb (eqb (key o)) ks); cbn [app]; f_equal.
      symmetry. apply group_snoc_other. intros ->. rewrite (proj2 (eqb_eq _ _) eq_refl) in E. discriminate.
  Qed.
  Lemma fold_groups (step : list A -> O -> list A) : (forall gs o, step gs o = upsert (test o) (update o) (fresh o) gs) ->
    forall os, fold_left step os [] = map (group_of os) (firsts (map key os)).
  Proof.
    intros Hs. induction os as [|o os IH] using rev_ind; [reflexivity|]. rewrite fold_left_app. cbn [fold_left]. rewrite Hs, IH, map_app. cbn [map]. rewrite firsts_snoc.
    rewrite upsert_group by apply firsts_nodup. destruct (existsb (eqb (key o)) (firsts (map key os))) eqn:E; [reflexivity|].
    rewrite map_app. cbn [map]. f_equal.
    - apply map_ext_in. intros k Hk. symmetry. apply group_snoc_other. intros ->. apply exists_in in Hk. congruence.
    - f_equal. rewrite fresh_mk. unfold group_of. rewrite filter_app. cbn [filter]. rewrite (proj2 (eqb_eq _ _) eq_refl).
      assert (F : filter (fun o' => eqb (key o') (key o)) os = []).
      { clear IH. assert (N : ~ In (key o) (map key os)) by (intros H; apply (firsts_in (map key os)) in H; apply exists_in in H; congruence).
        clear E. induction os as [|a os IH]; [reflexivity|]. cbn [filter]. destruct (eqb (key a) (key o)) eqn:E; [|apply IH; intros H; apply N; right; exact H].
        exfalso. apply N. left. apply eqb_eq. exact E. }
      rewrite F. reflexivity.
  Qed.
End Firsts.

Section Groups.
  Context {K : fld}.
  Add Field Kk3 : (fld_theory K).
  Implicit Types (os : list (opening K)) (o : opening K).

  (** ** GroupBySinglePoint *)
  Definition single_group os (x : K) : grouped K := mk_grouped (map (fun o => (o_ref o, [o_value o])) (filter (fun o => feqb (o_point o) x) os)) [x].
  Lemma single_spec os : group_by_single_point os = map (single_group os) (firsts K feqb (map o_point os)).
  Proof.
    unfold group_by_single_point. rewrite (fold_groups K feqb (fun a b => feqb_eq K a b) (opening K) (grouped K) o_point
      (fun x l => mk_grouped (map (fun o => (o_ref o, [o_value o])) l) [x])
      (fun o => at_point (o_point o)) (fun o g => mk_grouped (g_polys g ++ [(o_ref o, [o_value o])]) (g_points g)) (fun o => mk_grouped [(o_ref o, [o_value o])] [o_point o])).
    - reflexivity.
    - intros o x l. unfold at_point. cbn [g_points]. destruct (feqb x (o_point o)) eqn:E.
      + apply feqb_eq in E. subst x. symmetry. apply feqb_refl.
      + symmetry. apply feqb_neq. apply feqb_neq in E. congruence.
    - intros o x l. cbn [g_polys g_points]. rewrite map_app. reflexivity.
    - reflexivity.
    - reflexivity.
  Qed.

  (** ** Sets *)
  Variable ltb : K -> K -> bool.
  Hypothesis Ho : orders ltb.
  Local Notation lt := (fun x y : K => ltb x y = true).
  Lemma insert_in (x y : K) l : In y (set_insert ltb x l) <-> y = x \/ In y l.
  Proof.
    destruct Ho as (Hi & Ht & Hc). induction l as [|z l IH]; cbn [set_insert].
    - cbn [In]. split; [intros [->|[]]; left; reflexivity|]. intros [->|[]]; left; reflexivity.
    - destruct (ltb x z) eqn:E1; [cbn [In]; split; [intros [->|H]; [left; reflexivity|right; exact H]|intros [->|H]; [left; reflexivity|right; exact H]]|].
      destruct (ltb z x) eqn:E2; cbn [In]; [rewrite IH; tauto|]. pose proof (Hc x z E1 E2) as ->. split; [tauto|]. intros [->|H]; [left; reflexivity|exact H].
  Qed.
  Lemma insert_sorted (x : K) l : StronglySorted lt l -> StronglySorted lt (set_insert ltb x l).
  Proof.
    destruct Ho as (Hi & Ht & Hc). induction l as [|z l IH]; intros Hs; cbn [set_insert]; [repeat constructor|].
    pose proof (StronglySorted_inv Hs) as [Hl Hz].
    destruct (ltb x z) eqn:E1.
    - constructor; [exact Hs|]. constructor; [exact E1|]. rewrite Forall_forall in *. intros w Hw. exact (Ht x z w E1 (Hz w Hw)).
    - destruct (ltb z x) eqn:E2; [|exact Hs]. constructor; [apply IH; exact Hl|]. rewrite Forall_forall in *. intros w Hw. apply insert_in in Hw.
      destruct Hw as [->|Hw]; [exact E2|exact (Hz w Hw)].
  Qed.
  Lemma sorted_nodup (l : list K) : StronglySorted lt l -> NoDup l.
  Proof.
    destruct Ho as (Hi & Ht & Hc). induction 1 as [|z l Hl IH Hz]; constructor; [|exact IH]. intros H. rewrite Forall_forall in Hz. specialize (Hz z H). rewrite Hi in Hz. discriminate.
  Qed.
  Lemma insert_length (x : K) l : length (set_insert ltb x l) <= S (length l).
  Proof. induction l as [|z l IH]; cbn [set_insert length]; [lia|]. destruct (ltb x z); cbn [length]; [lia|]. destruct (ltb z x); cbn [length]; lia. Qed.
  Definition set_of (xs : list K) : list K := fold_left (fun s x => set_insert ltb x s) xs [].
  Lemma set_of_snoc xs x : set_of (xs ++ [x]) = set_insert ltb x (set_of xs).
  Proof. unfold set_of. rewrite fold_left_app. reflexivity. Qed.
  Lemma set_of_in xs y : In y (set_of xs) <-> In y xs.
  Proof.
    induction xs as [|x xs IH] using rev_ind; [reflexivity|]. rewrite set_of_snoc, insert_in, IH, in_app_iff. cbn [In]. intuition congruence.
  Qed.
  Lemma set_of_sorted xs : StronglySorted lt (set_of xs).
  Proof. induction xs as [|x xs IH] using rev_ind; [constructor|]. rewrite set_of_snoc. apply insert_sorted. exact IH. Qed.
  Lemma set_of_length xs : length (set_of xs) <= length xs.
  Proof. induction xs as [|x xs IH] using rev_ind; [reflexivity|]. rewrite set_of_snoc, app_length. cbn [length]. pose proof (insert_length x (set_of xs)). lia. Qed.
  Lemma super_spec os : super_points ltb os = set_of (map o_point os).
  Proof. unfold super_points, set_of. generalize (@nil K). induction os as [|o os IH]; intros s; cbn [map fold_left]; [reflexivity|]. apply IH. Qed.
  Lemma set_eqb_eq (a b : list K) : set_eqb a b = true <-> a = b.
  Proof.
    revert b. induction a as [|x a IH]; intros [|y b]; cbn [set_eqb]; try (split; [discriminate|discriminate]); [split; reflexivity|].
    rewrite andb_true_iff, IH. split; [intros [E ->]; apply feqb_eq in E; congruence|]. intros E. injection E as -> ->. split; [apply feqb_refl|reflexivity].
  Qed.

  (** ** GroupByPolyOracleAndPoints *)
  Definition pts_of os (r : nat) : list K := set_of (map o_point (filter (fun o => Nat.eqb (o_ref o) r) os)).
  Definition refs_of os : list nat := firsts nat Nat.eqb (map o_ref os).
  Lemma oracle_spec os : group_by_oracle ltb os = map (fun r => (r, pts_of os r)) (refs_of os).
  Proof.
    unfold group_by_oracle. rewrite (fold_groups nat Nat.eqb Nat.eqb_eq (opening K) (nat * list K) o_ref (fun r l => (r, set_of (map o_point l)))
      (fun o g => Nat.eqb (fst g) (o_ref o)) (fun o g => (fst g, set_insert ltb (o_point o) (snd g))) (fun o => (o_ref o, set_insert ltb (o_point o) []))).
    - reflexivity.
    - intros o r l. cbn [fst]. apply Nat.eqb_sym.
    - intros o r l. cbn [fst snd]. rewrite map_app. cbn [map]. rewrite set_of_snoc. reflexivity.
    - reflexivity.
    - reflexivity.
  Qed.
  Definition pt_sets os : list (list K) := firsts (list K) set_eqb (map (pts_of os) (refs_of os)).
  Definition refs_at os (pts : list K) : list nat := filter (fun r => set_eqb (pts_of os r) pts) (refs_of os).
  Lemma points_spec os : group_by_points (group_by_oracle ltb os) = map (fun pts => (pts, refs_at os pts)) (pt_sets os).
  Proof.
    rewrite oracle_spec. unfold group_by_points. rewrite (fold_groups (list K) set_eqb set_eqb_eq (nat * list K) (list K * list nat) snd (fun pts l => (pts, map fst l))
      (fun p g => set_eqb (fst g) (snd p)) (fun p g => (fst g, snd g ++ [fst p])) (fun p => (snd p, [fst p]))).
    - rewrite map_map. cbn [snd]. unfold pt_sets. apply map_ext. intros pts. unfold group_of. f_equal. unfold refs_at.
      induction (refs_of os) as [|r rs IH]; [reflexivity|]. cbn [map filter snd]. destruct (set_eqb (pts_of os r) pts); cbn [map fst]; rewrite IH; reflexivity.
    - intros p pts l. cbn [fst]. destruct (set_eqb pts (snd p)) eqn:E.
      + apply set_eqb_eq in E. symmetry. apply set_eqb_eq. congruence.
      + destruct (set_eqb (snd p) pts) eqn:E2; [|reflexivity]. apply set_eqb_eq in E2. rewrite (proj2 (set_eqb_eq pts (snd p))) in E by congruence. discriminate.
    - intros p pts l. cbn [fst snd]. rewrite map_app. reflexivity.
    - reflexivity.
    - reflexivity.
  Qed.
  Definition claimed os (r : nat) (x : K) : K := match get_opening os r x with Some v => v | None => 0%fld end.
  Lemma pts_of_in os r x : In x (pts_of os r) <-> exists o, In o os /\ o_ref o = r /\ o_point o = x.
  Proof.
    unfold pts_of. rewrite set_of_in, in_map_iff. split.
    - intros (o & <- & H). apply filter_In in H. destruct H as [H E]. apply Nat.eqb_eq in E. exists o. auto.
    - intros (o & H & E & <-). exists o. split; [reflexivity|]. apply filter_In. split; [exact H|]. apply Nat.eqb_eq. exact E.
  Qed.
  Lemma refs_of_in os r : In r (refs_of os) <-> exists o, In o os /\ o_ref o = r.
  Proof. unfold refs_of. rewrite (firsts_in nat Nat.eqb Nat.eqb_eq), in_map_iff. split; intros (o & A & B); exists o; auto. Qed.
  Lemma get_opening_spec os r x : (exists o, In o os /\ o_ref o = r /\ o_point o = x) -> exists o, first_claim os o /\ o_ref o = r /\ o_point o = x /\ get_opening os r x = Some (o_value o).
  Proof.
    unfold get_opening. induction os as [|a os IH]; intros (o & H & E1 & E2); [destruct H|]. cbn [find].
    destruct (Nat.eqb (o_ref a) r && feqb (o_point a) x) eqn:T.
    - apply andb_true_iff in T. destruct T as [T1 T2]. apply Nat.eqb_eq in T1. apply feqb_eq in T2. exists a. split; [|cbn; auto]. exists [], os. split; [reflexivity|]. intros o' [].
    - destruct H as [->|H]; [rewrite E1, E2, Nat.eqb_refl, feqb_refl in T; discriminate|]. destruct IH as (o1 & (bf & af & -> & N) & F1 & F2 & G); [exists o; auto|].
      exists o1. split; [|auto]. exists (a :: bf), af. split; [reflexivity|]. intros o' [<-|Ho']; [|apply N; exact Ho']. intros [B1 B2]. rewrite F1 in B1. rewrite F2 in B2.
      rewrite B1, B2, Nat.eqb_refl, feqb_refl in T. discriminate.
  Qed.
  Lemma first_claim_in os o : first_claim os o -> In o os.
  Proof. intros (bf & af & -> & _). apply in_app_iff. right. left. reflexivity. Qed.
  Lemma first_claim_get os o : first_claim os o -> get_opening os (o_ref o) (o_point o) = Some (o_value o).
  Proof.
    intros (bf & af & -> & N). unfold get_opening. induction bf as [|a bf IH]; cbn [app find].
    - rewrite Nat.eqb_refl, feqb_refl. reflexivity.
    - destruct (Nat.eqb (o_ref a) (o_ref o) && feqb (o_point a) (o_point o)) eqn:T; [|apply IH; intros o' H; apply N; right; exact H].
      apply andb_true_iff in T. destruct T as [T1 T2]. apply Nat.eqb_eq in T1. apply feqb_eq in T2. exfalso. exact (N a (or_introl eq_refl) (conj T1 T2)).
  Qed.
  Lemma claimed_spec os r x : In x (pts_of os r) -> exists o, first_claim os o /\ o_ref o = r /\ o_point o = x /\ get_opening os r x = Some (claimed os r x) /\ claimed os r x = o_value o.
  Proof.
    intros H. apply pts_of_in in H. destruct (get_opening_spec os r x H) as (o & F & E1 & E2 & G). exists o. unfold claimed. rewrite G. auto.
  Qed.
  Definition multi_group os (pts : list K) : grouped K := mk_grouped (map (fun r => (r, map (claimed os r) pts)) (refs_at os pts)) pts.
  Lemma all_some_ext {A B} (f : A -> option B) (g : A -> B) l : (forall a, In a l -> f a = Some (g a)) -> all_some (map f l) = Some (map g l).
  Proof.
    induction l as [|a l IH]; intros H; [reflexivity|]. cbn [map all_some]. rewrite (H a (or_introl eq_refl)), IH by (intros b Hb; apply H; right; exact Hb). reflexivity.
  Qed.
  Lemma refs_at_in os pts r : In r (refs_at os pts) <-> In r (refs_of os) /\ pts_of os r = pts.
  Proof. unfold refs_at. rewrite filter_In, set_eqb_eq. reflexivity. Qed.
  Lemma multi_spec os : group_by_oracle_and_points ltb os = Some (map (multi_group os) (pt_sets os)).
  Proof.
    unfold group_by_oracle_and_points. rewrite points_spec, map_map. apply all_some_ext. intros pts _. unfold create_multi. cbn [fst snd].
    rewrite (all_some_ext _ (fun r => (r, map (claimed os r) pts))); [reflexivity|]. intros r Hr. apply refs_at_in in Hr. destruct Hr as [_ E].
    rewrite (all_some_ext _ (claimed os r)); [reflexivity|]. intros x Hx. rewrite <- E in Hx. destruct (claimed_spec os r x Hx) as (o & _ & _ & _ & G & _). exact G.
  Qed.
  Lemma pt_sets_in os pts : In pts (pt_sets os) <-> exists r, In r (refs_of os) /\ pts_of os r = pts.
  Proof. unfold pt_sets. rewrite (firsts_in (list K) set_eqb set_eqb_eq), in_map_iff. split; intros (r & A & B); exists r; auto. Qed.
  Lemma pt_sets_length os : length (pt_sets os) <= length os.
  Proof.
    pose proof (firsts_length (list K) set_eqb (map (pts_of os) (refs_of os))) as L1. pose proof (firsts_length nat Nat.eqb (map o_ref os)) as L2.
    rewrite map_length in L1, L2. fold (pt_sets os) in L1. fold (refs_of os) in L2. lia.
  Qed.
  Lemma refs_at_length os pts : length (refs_at os pts) <= length os.
  Proof.
    unfold refs_at. assert (L : length (refs_of os) <= length os) by (unfold refs_of; pose proof (firsts_length nat Nat.eqb (map o_ref os)) as L; rewrite map_length in L; exact L).
    etransitivity; [|exact L]. clear L. induction (refs_of os) as [|r rs IH]; [reflexivity|]. cbn [filter]. destruct (set_eqb (pts_of os r) pts); cbn [length]; lia.
  Qed.
  (** What the later proofs use. *)
  Lemma multi_facts os pts : In pts (pt_sets os) ->
    StronglySorted lt pts /\ NoDup pts /\ pts <> [] /\ length pts <= length os /\ (forall x, In x pts -> In x (super_points ltb os)) /\ refs_at os pts <> [].
  Proof.
    intros H. apply pt_sets_in in H. destruct H as (r & Hr & <-). split; [apply set_of_sorted|]. split; [apply sorted_nodup, set_of_sorted|].
    apply refs_of_in in Hr. destruct Hr as (o & H & E). assert (I : In (o_point o) (pts_of os r)) by (apply pts_of_in; exists o; auto).
    split; [intros E0; rewrite E0 in I; destruct I|]. split.
    { unfold pts_of. etransitivity; [apply set_of_length|]. rewrite map_length. clear. induction os as [|o os IH]; [reflexivity|]. cbn [filter]. destruct (Nat.eqb (o_ref o) r); cbn [length]; lia. }
    split.
    { intros x Hx. rewrite super_spec. apply set_of_in. apply pts_of_in in Hx. destruct Hx as (o' & H' & _ & <-). apply in_map. exact H'. }
    intros E0. assert (I2 : In r (refs_at os (pts_of os r))) by (apply refs_at_in; split; [apply refs_of_in; exists o; auto|reflexivity]). rewrite E0 in I2. destruct I2.
  Qed.
  Lemma super_facts os : StronglySorted lt (super_points ltb os) /\ NoDup (super_points ltb os) /\ length (super_points ltb os) <= length os /\
    forall x, In x (super_points ltb os) <-> In x (map o_point os).
  Proof.
    rewrite super_spec. split; [apply set_of_sorted|]. split; [apply sorted_nodup, set_of_sorted|]. split; [etransitivity; [apply set_of_length|]; rewrite map_length; reflexivity|].
    intros x. apply set_of_in.
  Qed.
  Lemma multi_cover os o : In o os -> In (pts_of os (o_ref o)) (pt_sets os) /\ In (o_ref o) (refs_at os (pts_of os (o_ref o))) /\ In (o_point o) (pts_of os (o_ref o)).
  Proof.
    intros H. assert (R : In (o_ref o) (refs_of os)) by (apply refs_of_in; exists o; auto). split; [apply pt_sets_in; exists (o_ref o); auto|].
    split; [apply refs_at_in; auto|]. apply pts_of_in. exists o. auto.
  Qed.
  Lemma pt_sets_head o os : exists r, pt_sets (o :: os) = pts_of (o :: os) (o_ref o) :: r.
  Proof.
    unfold pt_sets, refs_of. cbn [map]. destruct (firsts_cons nat Nat.eqb (o_ref o) (map o_ref os)) as (r & ->). cbn [map]. apply firsts_cons.
  Qed.
  (** The points split into those of a group and the others. *)
  Lemma diffs_perm super (pts : list K) : NoDup super -> NoDup pts -> (forall x, In x pts -> In x super) -> Permutation super (pts ++ diffs super pts).
  Proof.
    intros Hs Hp Hi. assert (C : forall x, existsb (fun y => feqb y x) pts = true <-> In x pts).
    { intros x. rewrite existsb_exists. split; [intros (y & Hy & E); apply feqb_eq in E; subst y; exact Hy|]. intros H. exists x. split; [exact H|apply feqb_refl]. }
    apply NoDup_Permutation; [exact Hs| |].
    - unfold diffs. clear Hi. induction pts as [|p pts IH] in Hp, C |- *.
      + cbn [app existsb negb]. apply NoDup_filter. exact Hs.
      + assert (G : forall l1 l2 : list K, NoDup l1 -> NoDup l2 -> (forall x, In x l1 -> ~ In x l2) -> NoDup (l1 ++ l2)).
        { clear. induction l1 as [|a l1 IH]; intros l2 H1 H2 H; [exact H2|]. inversion H1; subst. cbn [app]. constructor.
          - rewrite in_app_iff. intros [I|I]; [contradiction|]. exact (H a (or_introl eq_refl) I).
          - apply IH; auto. intros x Hx. apply H. right. exact Hx. }
        apply G; [exact Hp|apply NoDup_filter; exact Hs|]. intros x Hx Hf. apply filter_In in Hf. destruct Hf as [_ Hf]. apply C in Hx. rewrite Hx in Hf. discriminate.
    - intros x. rewrite in_app_iff. unfold diffs. rewrite filter_In. split.
      + intros H. destruct (existsb (fun y => feqb y x) pts) eqn:E; [left; apply C; exact E|right; auto].
      + intros [H|[H _]]; [apply Hi; exact H|exact H].
  Qed.
  Lemma diffs_in super (pts : list K) x : In x (diffs super pts) <-> In x super /\ ~ In x pts.
  Proof.
    unfold diffs. rewrite filter_In. split; intros [H1 H2]; (split; [exact H1|]).
    - intros H. apply negb_true_iff in H2. assert (E : existsb (fun y => feqb y x) pts = true) by (apply existsb_exists; exists x; split; [exact H|apply feqb_refl]). congruence.
    - apply negb_true_iff. destruct (existsb (fun y => feqb y x) pts) eqn:E; [|reflexivity]. apply existsb_exists in E. destruct E as (y & Hy & E). apply feqb_eq in E. subst y. contradiction.
  Qed.
End Groups.
