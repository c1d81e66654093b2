(** Proofs about GWC, and about the witness polynomials GWC and SHPlonk share. *)
From Coq Require Import ZArith Lia List Bool Arith Ring Field Field_theory.
From Verif Require Import Field PolySpec PolyModel PolyProof3 PolyProof4 GrothModel GrothProof KzgModel KzgSpec KzgProof KzgProof2 KzgProof3.
Import ListNotations.
Open Scope fld_scope.

Lemma combine_map_self {A B} (f : A -> B) : forall l, combine l (map f l) = map (fun a => (a, f a)) l.
Proof. induction l as [|a l IH]; cbn [map combine]; [reflexivity|]. rewrite IH. reflexivity. Qed.
Lemma combine_map_r {A B C} (f : B -> C) : forall (l : list A) m, combine l (map f m) = map (fun p => (fst p, f (snd p))) (combine l m).
Proof. induction l as [|a l IH]; intros [|b m]; cbn [map combine]; [reflexivity..|]. rewrite IH. reflexivity. Qed.
Lemma combine_in_l {A B} : forall (l : list A) (m : list B) a, In a l -> length l <= length m -> exists b, In (a, b) (combine l m).
Proof.
  induction l as [|x l IH]; intros [|b m] a H L; cbn [length] in L; try (destruct H; fail); [lia|].
  destruct H as [->|H]; [exists b; left; reflexivity|]. destruct (IH m a H ltac:(lia)) as (b' & H'). exists b'. right. exact H'.
Qed.
Lemma combine_app_l {A B} : forall (l : list A) (m r : list B), length l = length m -> combine l (m ++ r) = combine l m.
Proof. induction l as [|x l IH]; intros [|b m] r L; try discriminate L; cbn [app combine]; [reflexivity|]. rewrite IH by (injection L; auto). reflexivity. Qed.

Section Combined.
  Context {K : fld}.
  Add Field Kk5 : (fld_theory K).
  Variables md threads : Z.
  Hypothesis Ht : (0 < threads < 128)%Z.
  Hypothesis Hmd : (0 <= md < 2 ^ 62)%Z.
  (** The interpolant of a group's values. *)
  Definition lde (pts vals : list K) : list K := match lagrange_interpolate md threads pts vals with Some (Some l) => l | _ => [] end.
  Lemma lde_ok pts vals : pts <> [] -> NoDup pts -> (Z.of_nat (length pts) <= md + 1)%Z -> length vals = length pts ->
    lagrange_interpolate md threads pts vals = Some (Some (lde pts vals)) /\ canonical (lde pts vals) /\ (length (lde pts vals) <= length pts)%nat /\
    forall k, (k < length pts)%nat -> eval (lde pts vals) (nth k pts 0) = nth k vals 0.
  Proof using Ht Hmd.
    intros H1 H2 H3 H4. destruct (interpolate_spec K md threads pts vals H1 (eq_sym H4) H2 ltac:(lia)) as (l & E & H).
    - change (2 ^ 62)%Z with 4611686018427387904%Z in Hmd. change (2 ^ 64)%Z with 18446744073709551616%Z. lia.
    - exact H3.
    - unfold lde. rewrite E. auto.
  Qed.
  Definition good_group (polys : nat -> list K) (n : nat) (g : grouped K) : Prop :=
    g_points g <> [] /\ NoDup (g_points g) /\ (Z.of_nat (length (g_points g)) <= md + 1)%Z /\ g_polys g <> [] /\
    forall r vals, In (r, vals) (g_polys g) -> canonical (polys r) /\ (length (polys r) <= n)%nat /\ length vals = length (g_points g).
  Lemma extensions_ok polys n g : good_group polys n g -> low_degree_extensions md threads g = Some (map (fun p => lde (g_points g) (snd p)) (g_polys g)).
  Proof using Ht Hmd.
    intros (H1 & H2 & H3 & _ & H4). unfold low_degree_extensions. apply all_some_ext. intros [r vals] Hp. destruct (H4 r vals Hp) as (_ & _ & L). cbn [snd].
    rewrite (proj1 (lde_ok (g_points g) vals H1 H2 H3 L)). reflexivity.
  Qed.
  Definition true_group (polys : nat -> list K) (g : grouped K) : Prop :=
    forall r vals k, In (r, vals) (g_polys g) -> (k < length (g_points g))%nat -> eval (polys r) (nth k (g_points g) 0) = nth k vals 0.
  (** A combination of the numerators at [x]. *)
  Definition numerator (polys : nat -> list K) (g : grouped K) (r x : K) : K :=
    eval (map (fun p => eval (polys (fst p)) x - eval (lde (g_points g) (snd p)) x) (g_polys g)) r.
  Lemma combined_ok polys n g r : good_group polys n g -> true_group polys g -> (Z.of_nat n <= md + 1)%Z ->
    exists w, combined md threads polys g r = Some (map (fun p => lde (g_points g) (snd p)) (g_polys g), w) /\ canonical w /\ (length w <= n)%nat /\
      forall x, numerator polys g r x = eval w x * fprod (map (fun t => x - t) (g_points g)).
  Proof using Ht Hmd.
    intros HG HT Hn. unfold combined. rewrite (extensions_ok polys n g HG). destruct HG as (H1 & H2 & H3 & H4 & H5).
    unfold combine_extensions. rewrite combine_map_self, map_map. cbn [fst snd].
    set (N := Nat.max n (length (g_points g))). assert (HN : (Z.of_nat N <= md + 1)%Z) by (unfold N; lia).
    assert (E : exists ms, all_some (map (fun p => dense_sub md (polys (fst p)) (lde (g_points g) (snd p))) (g_polys g)) = Some ms /\ (ms = [] -> g_polys g = []) /\
                  Forall (okp K) ms /\ Forall (fun p => (length p <= N)%nat) ms /\
                  forall x, map (fun p => eval p x) ms = map (fun p => eval (polys (fst p)) x - eval (lde (g_points g) (snd p)) x) (g_polys g)).
    { clear H4 HT. induction (g_polys g) as [|[s vals] l IH]; [exists []; repeat split; constructor|].
      destruct IH as (ms & E & _ & F1 & F2 & V); [intros s' v' H'; apply (H5 s' v'); right; exact H'|].
      destruct (H5 s vals (or_introl eq_refl)) as (C & L & Lv). destruct (lde_ok (g_points g) vals H1 H2 H3 Lv) as (_ & C2 & L2 & _).
      destruct (sub_s K md (polys s) (lde (g_points g) vals)) as (m & Em & Om & Lm & Vm); [left; exact C|left; exact C2|apply (degree_le K md _ (length (g_points g))); lia|].
      exists (m :: ms). cbn [map all_some fst snd]. rewrite Em, E. split; [reflexivity|]. split; [discriminate|]. split; [constructor; assumption|].
      split; [constructor; [unfold N; lia|assumption]|]. intros x. cbn [map fst snd]. rewrite Vm, V. reflexivity. }
    destruct E as (ms & -> & Hne & F1 & F2 & V). destruct (lc_polys_spec K r N ms) as (num & -> & On & Ln & Vn); [intros E; apply H4, Hne, E|assumption..|].
    assert (Vx : forall x, eval num x = numerator polys g r x) by (intros x; rewrite Vn, V; reflexivity).
    destruct (div_roots K md num (g_points g)) as (v & w & -> & -> & Cw & Lw & Vw).
    - exact On.
    - apply (degree_le K md num N); lia.
    - exact H1.
    - exact H2.
    - intros x Hx. rewrite Vx. apply horner_all_zero. intros a Ha. apply in_map_iff in Ha. destruct Ha as ([s vals] & <- & Hs). cbn [fst snd].
      destruct (H5 s vals Hs) as (_ & _ & Lv). destruct (lde_ok (g_points g) vals H1 H2 H3 Lv) as (_ & _ & _ & Iv).
      destruct (In_nth _ _ 0 Hx) as (k & Lk & <-). rewrite (Iv k Lk), (HT s vals k Hs Lk). ring.
    - exists w. split; [reflexivity|]. split; [exact Cw|]. split.
      + assert (0 < length (g_points g))%nat by (destruct (g_points g); [contradiction|cbn; lia]). unfold N in *. lia.
      + intros x. rewrite <- Vx. apply Vw.
  Qed.
End Combined.

Section Gwc.
  Context {K : fld} {G1 G2 GT : group K} (e : pairing G1 G2 GT).
  Add Field Kk6 : (fld_theory K).
  Variables (g1 : G1) (g2 : G2).
  Implicit Types (os : list (opening K)) (g : grouped K).
  (** The verifier's batches, when the commitments are known multiples of the generator. *)
  Definition vals_at (g : grouped K) (v : K) : K := eval (map (fun p => nth 0 (snd p) 0) (g_polys g)) v.
  Definition comm_at (c : nat -> K) (g : grouped K) (v : K) : K := eval (map (fun p => c (fst p)) (g_polys g)) v.
  Definition x_of (g : grouped K) : K := nth 0 (g_points g) 0.
  Lemma opening_batch_ok (c : nat -> K) v g : opening_batch (fun r => (c r ** g1)%grp) v g = (vals_at g v, (comm_at c g v ** g1)%grp).
  Proof.
    unfold opening_batch, vals_at, comm_at. induction (g_polys g) as [|p l IH].
    - cbn [rev fold_left map]. rewrite !eval_nil, gmul_0. reflexivity.
    - cbn [rev map]. rewrite fold_left_app, IH. cbn [fold_left]. unfold batch_step. cbn [fst snd]. rewrite !eval_cons. f_equal; [ring|].
      rewrite <- gmul_mul, <- gmul_add_l. f_equal. ring.
  Qed.
  Lemma gwc_fold (c : nat -> K) v u : forall (l : list (grouped K * K)) (o cm a w pw : K),
    fold_left (gwc_step (fun r => (c r ** g1)%grp) v u) (map (fun p => (fst p, (snd p ** g1)%grp)) l) (mk_gs o (cm ** g1)%grp (a ** g1)%grp (w ** g1)%grp pw) =
    mk_gs (o + pw * eval (map (fun p => vals_at (fst p) v) l) u) ((cm + pw * eval (map (fun p => comm_at c (fst p) v) l) u)%fld ** g1)%grp
      ((a + pw * eval (map (fun p => x_of (fst p) * snd p) l) u)%fld ** g1)%grp ((w + pw * eval (map snd l) u)%fld ** g1)%grp (pw * u ^ length l).
  Proof.
    induction l as [|[g x] l IH]; intros o cm a w pw; cbn [map fold_left length].
    - rewrite !eval_nil. cbn [fpow]. f_equal; try (f_equal; ring); ring.
    - unfold gwc_step at 2. cbn [fst snd s_opening s_commitment s_aux s_witness s_power]. rewrite opening_batch_ok, <- !gmul_mul, <- !gmul_add_l, IH. rewrite !eval_cons, fpow_S.
      fold (x_of g). f_equal; try (f_equal; ring); ring.
  Qed.
  (** What the verifier checks. *)
  Definition gwc_term (c : nat -> K) (tau v : K) (p : grouped K * K) : K := (tau - x_of (fst p)) * snd p - (comm_at c (fst p) v - vals_at (fst p) v).
  Lemma gwc_scalars (c : nat -> K) (p : pcs G1 G2) tau os v (ws : list K) u : p_arr0 p = (tau ** g2)%grp -> p_arr1 p = (- g2)%grp ->
    gwc_verify e g1 p (fun r => (c r ** g1)%grp) os v (map (fun w => (w ** g1)%grp) ws) u = true <->
    (length (group_by_single_point os) <= length ws)%nat /\ (eval (map (gwc_term c tau v) (combine (group_by_single_point os) ws)) u ** e g1 g2)%grp = gzero.
  Proof.
    intros E0 E1. unfold gwc_verify. rewrite map_length. set (gs := group_by_single_point os). destruct (Nat.ltb_spec (length ws) (length gs)) as [L|L].
    { split; [discriminate|]. intros [H _]. lia. }
    rewrite combine_map_r, E0, E1. pose proof (gwc_fold c v u (combine gs ws) 0 0 0 0 1) as F. rewrite !gmul_0 in F. rewrite F. clear F. cbn [s_opening s_commitment s_aux s_witness].
    rewrite gneg_scalar, <- !gmul_add_l, (gneg_mul g2), !pair_scalars, <- gmul_add_l, gt_eqb_eq.
    set (l := combine gs ws). assert (E : eval (map (gwc_term c tau v) l) u =
      tau * eval (map snd l) u - eval (map (fun p => x_of (fst p) * snd p) l) u - (eval (map (fun p => comm_at c (fst p) v) l) u - eval (map (fun p => vals_at (fst p) v) l) u)).
    { clear. induction l as [|q l IH]; cbn [map]; [rewrite !eval_nil; ring|]. rewrite !eval_cons, IH. unfold gwc_term. ring. }
    rewrite E. split.
    - intros H. split; [exact L|]. rewrite <- H. f_equal. ring.
    - intros [_ H]. rewrite <- H. f_equal. ring.
  Qed.

  (** ** Completeness *)
  Lemma store_spec {A} : forall (l : list A) i x, (i < length l)%nat -> exists l', store l i x = Some l' /\ length l' = length l /\ firstn (S i) l' = firstn i l ++ [x].
  Proof.
    induction l as [|a l IH]; intros [|i] x L; cbn [length] in L; try lia; cbn [store].
    - exists (x :: l). repeat split.
    - destruct (IH i x ltac:(lia)) as (l' & -> & L' & F). exists (a :: l'). cbn [option_map]. split; [reflexivity|]. split; [cbn [length]; lia|]. rewrite !firstn_cons, F. reflexivity.
  Qed.
  Lemma commit_groups_ok md threads polys (k : kzg G1) v (w_of : grouped K -> list K) (tau : K) n : powers_at k g1 tau n -> forall gs b i,
    (forall g, In g gs -> (exists ldes, combined md threads polys g v = Some (ldes, w_of g)) /\ (length (w_of g) <= n)%nat) ->
    length (b_buffer b) = (i + length gs)%nat ->
    exists b', commit_groups md threads polys k b v i gs = Some (b', true) /\ b_buffer b' = firstn i (b_buffer b) ++ map (fun g => (eval (w_of g) tau ** g1)%grp) gs.
  Proof.
    intros Hk. induction gs as [|g gs IH]; intros b i Hg L; cbn [commit_groups map].
    - exists b. split; [reflexivity|]. cbn [length] in L. rewrite Nat.add_0_r in L. rewrite <- L, firstn_all, app_nil_r. reflexivity.
    - destruct (Hg g (or_introl eq_refl)) as ((ldes & ->) & Lw). rewrite (commit_ok k g1 tau n) by assumption. cbn [length] in L.
      destruct (store_spec (b_buffer b) i (eval (w_of g) tau ** g1)%grp ltac:(lia)) as (l' & -> & L' & F).
      destruct (IH (mk_batch (b_count b) l') (S i)) as (b' & E & F'); [intros g' H'; apply Hg; right; exact H'|cbn [b_buffer]; lia|].
      exists b'. split; [exact E|]. rewrite F'. cbn [b_buffer]. rewrite F, <- app_assoc. reflexivity.
  Qed.
  Lemma const_eval (l : list K) (x y : K) : (length l <= 1)%nat -> eval l x = eval l y.
  Proof. destruct l as [|a [|b l]]; intros L; cbn [length] in L; [rewrite !eval_nil; reflexivity|rewrite !eval_cons, !eval_nil; ring|lia]. Qed.
  Lemma single_groups os g : In g (group_by_single_point os) -> exists x, In x (map o_point os) /\ g = single_group os x.
  Proof.
    rewrite single_spec. intros H. apply in_map_iff in H. destruct H as (x & <- & Hx). exists x. split; [|reflexivity]. exact (proj1 (firsts_in K feqb (fun a b => feqb_eq K a b) _ _) Hx).
  Qed.
  Lemma single_member os x r vals : In (r, vals) (g_polys (single_group os x)) -> exists o, In o os /\ o_ref o = r /\ vals = [o_value o] /\ o_point o = x.
  Proof.
    cbn [single_group g_polys]. rewrite in_map_iff. intros (o & E & H). apply filter_In in H. destruct H as [H E2]. apply feqb_eq in E2. injection E as <- <-. exists o. auto.
  Qed.
  Lemma single_has os o : In o os -> In (single_group os (o_point o)) (group_by_single_point os) /\ In (o_ref o, [o_value o]) (g_polys (single_group os (o_point o))).
  Proof.
    intros H. split.
    - rewrite single_spec. apply in_map. apply (proj2 (firsts_in K feqb (fun a b => feqb_eq K a b) _ _)). apply in_map. exact H.
    - cbn [single_group g_polys]. apply in_map_iff. exists o. split; [reflexivity|]. apply filter_In. split; [exact H|apply feqb_refl].
  Qed.
  Section Complete.
    Variables (md threads : Z) (polys : nat -> list K) (n : nat) (os : list (opening K)).
    Hypothesis Ht : (0 < threads < 128)%Z.
    Hypothesis Hmd : (0 <= md < 2 ^ 62)%Z.
    Hypothesis Hn : (Z.of_nat n <= md + 1)%Z.
    Hypothesis Hfit : fit polys os n.
    Hypothesis Htrue : forall o, In o os -> holds polys o.
    Lemma single_good x : In x (map o_point os) -> good_group md polys n (single_group os x) /\ true_group polys (single_group os x).
    Proof using Hmd Hfit Htrue.
      intros Hx. unfold good_group, true_group. split.
      - cbn [single_group g_points length]. split; [discriminate|]. split; [repeat constructor; intros []|]. split; [lia|]. split.
        + apply in_map_iff in Hx. destruct Hx as (o & <- & Ho). destruct (single_has os o Ho) as [_ H]. cbn [single_group g_polys] in *. intros E. rewrite E in H. destruct H.
        + intros r vals H. destruct (single_member os x r vals H) as (o & Ho & <- & -> & _). destruct (Hfit o Ho). auto.
      - intros r vals k H Hk. cbn [single_group g_points length] in Hk. assert (k = 0)%nat as -> by lia. destruct (single_member os x r vals H) as (o & Ho & <- & -> & <-).
        cbn [single_group g_points nth]. exact (Htrue o Ho).
    Qed.
    Lemma gwc_complete_lemma (p : pcs G1 G2) tau v u rest : set_up p g1 g2 tau n ->
      exists proof, gwc_prove md threads p no_batch polys os v = Some (no_batch, Some proof) /\ gwc_verify e g1 p (committed polys tau g1) os v (proof ++ rest) u = true.
    Proof using Ht Hmd Hn Hfit Htrue.
      intros (Hk & E0 & E1). unfold gwc_prove. set (gs := group_by_single_point os).
      set (w_of := fun g => match combined md threads polys g v with Some (_, w) => w | None => [] end).
      assert (Hg : forall g, In g gs -> (exists ldes, combined md threads polys g v = Some (ldes, w_of g)) /\ (length (w_of g) <= n)%nat /\
                     forall x, numerator md threads polys g v x = eval (w_of g) x * (x - x_of g)).
      { intros g H. destruct (single_groups os g H) as (x & Hx & ->). destruct (single_good x Hx) as [GG TG].
        destruct (combined_ok md threads Ht Hmd polys n _ v GG TG Hn) as (w & E & _ & Lw & Vw). unfold w_of. rewrite E. split; [eexists; reflexivity|]. split; [exact Lw|].
        intros t. rewrite Vw. unfold x_of. cbn [single_group g_points map fprod nth]. ring. }
      assert (B : exists b : batch G1, set_batch_mode no_batch (length gs) = Some b /\ length (b_buffer b) = length gs).
      { unfold set_batch_mode, no_batch. cbn [b_count b_buffer]. destruct (Nat.eqb_spec (length gs) 0) as [E|E]; [exists (mk_batch 0 []); rewrite E; auto|].
        cbn [Nat.eqb]. eexists. split; [reflexivity|]. cbn [b_buffer length]. rewrite Nat.sub_0_r, firstn_nil. cbn [app]. apply repeat_length. }
      destruct B as (b & -> & Lb). destruct (commit_groups_ok md threads polys (p_kzg p) v w_of tau n Hk gs b 0) as (b' & -> & Eb); [intros g H; split; apply (Hg g H)|exact Lb|].
      exists (b_buffer b'). split; [reflexivity|]. rewrite Eb. cbn [firstn app].
      assert (V : gwc_verify e g1 p (committed polys tau g1) os v (map (fun g => (eval (w_of g) tau ** g1)%grp) gs) u = true).
      { rewrite <- (map_map (fun g => eval (w_of g) tau) (fun w => (w ** g1)%grp)). apply (gwc_scalars (fun r => eval (polys r) tau) p tau os v _ u E0 E1). fold gs. rewrite map_length.
        split; [reflexivity|]. rewrite combine_map_self, map_map. rewrite horner_all_zero; [apply gmul_0|]. intros a Ha. apply in_map_iff in Ha. destruct Ha as (g & <- & H).
        destruct (Hg g H) as (_ & _ & V). unfold gwc_term. cbn [fst snd]. destruct (single_groups os g H) as (x & Hx & ->). destruct (single_good x Hx) as [(G1' & G2' & G3' & _ & G5') TG].
        assert (E : numerator md threads polys (single_group os x) v tau = comm_at (fun r => eval (polys r) tau) (single_group os x) v - vals_at (single_group os x) v).
        { unfold numerator, comm_at, vals_at. rewrite horner_map_sub. f_equal. f_equal. apply map_ext_in. intros [r vals] Hr. cbn [snd].
          destruct (G5' r vals Hr) as (_ & _ & Lv). destruct (lde_ok md threads Ht Hmd _ vals G1' G2' G3' Lv) as (_ & _ & Ll & Iv).
          rewrite (const_eval _ tau (nth 0 (g_points (single_group os x)) 0) Ll). apply Iv. cbn [single_group g_points length]. lia. }
        rewrite <- E, V. ring. }
      unfold gwc_verify in *. fold gs in V |- *. rewrite app_length, map_length in *. destruct (Nat.ltb_spec (length gs + length rest) (length gs)); [lia|].
      rewrite Nat.ltb_irrefl in V. rewrite combine_app_l by (rewrite map_length; reflexivity). exact V.
    Qed.
  End Complete.

  (** ** Soundness *)
  Lemma single_count os : (length (group_by_single_point os) <= length os)%nat.
  Proof. rewrite single_spec, map_length. etransitivity; [apply firsts_length|]. rewrite map_length. reflexivity. Qed.
  Lemma single_size os x : (length (g_polys (single_group os x)) <= length os)%nat.
  Proof. cbn [single_group g_polys]. rewrite map_length. clear. induction os as [|o os IH]; [reflexivity|]. cbn [filter]. destruct (feqb (o_point o) x); cbn [length]; lia. Qed.
  Lemma gwc_sound_lemma (polys : nat -> list K) os N (Sv Su St : list K) : e g1 g2 <> gzero ->
    NoDup Sv -> NoDup Su -> NoDup St -> (length os <= length Sv)%nat -> (length os <= length Su)%nat -> (N < length St)%nat ->
    (forall o, In o os -> (length (polys (o_ref o)) <= N)%nat) ->
    (forall v, In v Sv -> exists ws : list (list K), (forall w, In w ws -> (length w <= N)%nat) /\
       forall u tau, In u Su -> In tau St -> exists p : pcs G1 G2, set_up p g1 g2 tau N /\
         gwc_verify e g1 p (committed polys tau g1) os v (map (fun w => (eval w tau ** g1)%grp) ws) u = true) ->
    forall o, In o os -> holds polys o.
  Proof.
    intros He NV NU NT LV LU LT HN H o Ho. destruct (single_has os o Ho) as [Hg Hm]. set (g := single_group os (o_point o)) in *.
    assert (Z : forall v, In v Sv -> eval (map (fun p => eval (polys (fst p)) (o_point o) - nth 0 (snd p) 0) (g_polys g)) v = 0).
    { intros v Hv. destruct (H v Hv) as (ws & Lw & A). clear H.
      assert (Lgw : (length (group_by_single_point os) <= length ws)%nat).
      { destruct Su as [|u Su]; [destruct os; [destruct Ho|cbn [length] in LU; lia]|]. destruct St as [|tau St]; [cbn [length] in LT; lia|].
        destruct (A u tau (or_introl eq_refl) (or_introl eq_refl)) as (p & (_ & E0 & E1) & V).
        rewrite <- (map_map (fun w => eval w tau) (fun w => (w ** g1)%grp)) in V. apply (gwc_scalars (fun r => eval (polys r) tau) p tau os v _ u E0 E1) in V. rewrite map_length in V. exact (proj1 V). }
      destruct (combine_in_l (group_by_single_point os) ws g Hg Lgw) as (w & Hw).
      set (F := fun tau => (tau - o_point o) * eval w tau - (comm_at (fun r => eval (polys r) tau) g v - vals_at g v)).
      assert (F0 : forall tau, In tau St -> F tau = 0).
      { intros tau Htau. set (l := map (gwc_term (fun r => eval (polys r) tau) tau v) (combine (group_by_single_point os) (map (fun w => eval w tau) ws))).
        apply (horner_zero K l Su NU).
        - unfold l. rewrite map_length, combine_length. pose proof (single_count os). lia.
        - intros u Hu. destruct (A u tau Hu Htau) as (p & (_ & E0 & E1) & V). rewrite <- (map_map (fun w => eval w tau) (fun w => (w ** g1)%grp)) in V.
          apply (gwc_scalars (fun r => eval (polys r) tau) p tau os v _ u E0 E1) in V. destruct (gmul_eq_0 _ _ (proj2 V)) as [E|E]; [exact E|contradiction].
        - unfold l. rewrite combine_map_r, map_map. apply in_map_iff. exists (g, w). split; [reflexivity|exact Hw]. }
      assert (F1 : F (o_point o) = 0).
      { apply (isp_vanish K (S N) F St); [|exact NT|lia|exact F0]. unfold F. apply isp_sub.
        - apply (isp_shift K N (eval w) (o_point o)). apply isp_list. apply Lw. exact (in_combine_r _ _ _ _ Hw).
        - apply isp_sub.
          + apply (isp_weaken K N); [|lia]. unfold comm_at. apply (isp_horner K N (fun p tau => eval (polys (fst p)) tau)). intros [r vals] Hr.
            destruct (single_member os _ r vals Hr) as (o' & Ho' & <- & _). cbn [fst]. apply isp_list. apply HN. exact Ho'.
          + apply (isp_weaken K 1); [apply isp_const|lia]. }
      rewrite horner_map_sub. unfold F, comm_at, vals_at in F1. etransitivity; [|apply (f_equal fopp) in F1; etransitivity; [exact F1|ring]]. ring. }
    unfold holds. apply (fsub_eq0 K). apply (horner_zero K _ Sv NV) with (a := eval (polys (o_ref o)) (o_point o) - o_value o) in Z; [exact Z|rewrite map_length; pose proof (single_size os (o_point o)); unfold g; lia|].
    apply in_map_iff. exists (o_ref o, [o_value o]). split; [reflexivity|exact Hm].
  Qed.
End Gwc.
