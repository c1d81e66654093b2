(** Theorems about the KZG family in the form in which KzgProps.v states them. *)
From Coq Require Import ZArith Lia List Bool Arith Sorted Ring Field Field_theory.
From Verif Require BatchProof2.
From Verif Require Import Field PolySpec PolyModel PolyProof PolyProof2 PolyProof3 FFTSpec GrothModel GrothProof KzgModel KzgSpec KzgProof KzgProof2 KzgProof3 KzgProof4 KzgProof5.
Import ListNotations.
Open Scope fld_scope.

Section Extra.
  Variable K : fld.
  Add Field Kk8 : (fld_theory K).
  Variables (G1 G2 GT : group K).

  Lemma pcs_setup_ok (threads : Z) (adicity : nat) (root : K) (g1 : G1) (g2 : G2) k (tau : K) :
    (0 < threads < 128)%Z -> (adicity < 62)%nat -> primitive_root root (2 ^ adicity) -> (k <= adicity)%nat ->
    exists p, pcs_setup threads adicity root g1 g2 (2 ^ k) tau = Some (Some p) /\ set_up p g1 g2 tau (2 ^ k) /\ p_s_g2 p = (tau ** g2)%grp /\
      unsafe_setup threads adicity root g1 (2 ^ k) tau = Some (Some (p_kzg p)).
  Proof.
    intros Ht Ha HP Hk. destruct (setup_ok threads adicity root Ht Ha HP g1 k tau Hk) as (s & E & P & _). unfold pcs_setup. rewrite E. cbn [option_map].
    eexists. split; [reflexivity|]. split; [split; [exact P|]; split; reflexivity|]. split; reflexivity.
  Qed.
  Lemma setup_commits (threads : Z) (adicity : nat) (root : K) (g1 : G1) (g2 : G2) (tau : K) :
    (0 < threads < 128)%Z -> (adicity < 62)%nat -> primitive_root root (2 ^ adicity) ->
    (forall k, (k <= adicity)%nat -> exists p, pcs_setup threads adicity root g1 g2 (2 ^ k) tau = Some (Some p) /\ set_up p g1 g2 tau (2 ^ k) /\ p_s_g2 p = (tau ** g2)%grp /\
       k_size (p_kzg p) = (2 ^ k)%nat /\
       (forall v, (length v <= 2 ^ k)%nat -> commit (p_kzg p) v = Some (eval v tau ** g1)%grp) /\
       (forall v, (2 ^ k < length v)%nat -> commit (p_kzg p) v = None /\ commit_lagrange (p_kzg p) v = None) /\
       (forall f, (length f <= 2 ^ k)%nat -> commit_lagrange (p_kzg p) (values_on f 1 (generator adicity root k) (2 ^ k)) = Some (eval f tau ** g1)%grp)) /\
    (forall n, (n <= 2 ^ adicity)%nat -> (forall k, n <> 2 ^ k)%nat -> pcs_setup threads adicity root g1 g2 n tau = Some None) /\
    (forall n, (2 ^ adicity < n)%nat -> (Z.of_nat n <= 2 ^ 62)%Z -> pcs_setup threads adicity root g1 g2 n tau = None).
  Proof.
    intros Ht Ha HP. split; [|split].
    - intros k Hk. destruct (pcs_setup_ok threads adicity root g1 g2 k tau Ht Ha HP Hk) as (p & E & S & E2 & U). exists p. split; [exact E|]. split; [exact S|]. split; [exact E2|].
      destruct S as (P & _). destruct (setup_ok threads adicity root Ht Ha HP g1 k tau Hk) as (s & U' & _ & Ll & V). rewrite U in U'. injection U' as <-.
      split; [exact (size_at _ g1 tau _ P)|]. split; [intros v Lv; exact (commit_ok _ g1 tau _ v P Lv)|]. split; [|exact V].
      intros v Lv. split; [apply commit_long; rewrite (size_at _ g1 tau _ P); exact Lv|]. apply msm_long. rewrite Ll. exact Lv.
    - intros n Hn Hp. unfold pcs_setup. rewrite (setup_false threads adicity root Ht Ha HP) by assumption. reflexivity.
    - intros n Hn Hb. unfold pcs_setup. rewrite (setup_aborts threads adicity root Ht Ha) by assumption. reflexivity.
  Qed.
  Lemma coeff_of_evals (xs a b : list K) : NoDup xs -> (length a <= length xs)%nat -> (length b <= length xs)%nat -> (forall x, In x xs -> eval a x = eval b x) -> forall i, coeff a i = coeff b i.
  Proof.
    intros Hn La Lb H i. apply fsub_eq0. set (d := map (fun i => coeff a i - coeff b i) (seq 0 (length xs))).
    assert (Hd : forall i, coeff d i = coeff a i - coeff b i).
    { intros j. unfold d. rewrite coeff_map_seq. destruct (Nat.ltb_spec j (length xs)); [reflexivity|]. rewrite !coeff_over by lia. ring. }
    rewrite <- Hd. apply (roots_bound K xs); auto.
    - unfold d. rewrite map_length, seq_length. lia.
    - intros x Hx. rewrite (eval_linear K a b d 1 (- (1))); [rewrite (H x Hx); ring|]. intros j. rewrite Hd. ring.
  Qed.
  Lemma binding (g1 : G1) n (v w St : list K) : g1 <> gzero -> NoDup St -> (n <= length St)%nat -> (length v <= n)%nat -> (length w <= n)%nat ->
    (forall tau, In tau St -> exists k : kzg G1, powers_at k g1 tau n /\ commit k v = commit k w) -> forall i, coeff v i = coeff w i.
  Proof.
    intros Hg HN LS Lv Lw H. apply (coeff_of_evals St v w HN); [lia..|]. intros tau Htau. destruct (H tau Htau) as (k & P & E).
    rewrite (commit_ok k g1 tau n v P Lv), (commit_ok k g1 tau n w P Lw) in E. injection E as E. apply (fsub_eq0 K).
    destruct (gmul_eq_0 (eval v tau - eval w tau) g1) as [Z|Z]; [|exact Z|contradiction].
    replace (eval v tau - eval w tau) with (eval v tau + - (1) * eval w tau) by ring. rewrite gmul_add_l, gmul_mul, E, <- gneg_mul. apply gadd_neg.
  Qed.
  Lemma downsize_commits (k : kzg G1) (g1 : G1) (tau : K) n : powers_at k g1 tau n ->
    (forall m, (m < n)%nat -> exists k', downsize k m = (k', true) /\ k_size k' = m /\ forall v, ((length v <= m)%nat -> commit k' v = Some (eval v tau ** g1)%grp) /\ ((m < length v)%nat -> commit k' v = None)) /\
    (forall m, (n <= m)%nat -> downsize k m = (k, false)).
  Proof.
    intros P. split.
    - intros m Hm. destruct (downsize_powers k g1 tau n m P Hm) as (k' & E & P' & _). exists k'. split; [exact E|]. split; [exact (size_at k' g1 tau m P')|]. intros v.
      split; intros L; [exact (commit_ok k' g1 tau m v P' L)|]. apply commit_long. rewrite (size_at k' g1 tau m P'). exact L.
    - intros m Hm. unfold downsize. rewrite (size_at k g1 tau n P). destruct (Nat.leb_spec n m); [reflexivity|lia].
  Qed.

  Variable e : pairing G1 G2 GT.
  (** A reloaded verifier checks W = tau (x W + C - y): at the point 0 everyone can meet that. *)
  Lemma reload_forgery (g1 : G1) (g2 : G2) (p : pcs G1 G2) (tau : K) n (polys : nat -> list K) r (y v u : K) : set_up p g1 g2 tau n -> p_s_g2 p = (tau ** g2)%grp ->
    (Nat.max (length (polys r)) 1 < n)%nat ->
    exists forged W, forged = 0 :: match polys r with [] => [- y] | c :: cs => (c - y) :: cs end /\ commit (p_kzg p) forged = Some W /\ gwc_verify e g1 (pcs_reload g2 p) (committed polys tau g1) [mk_opening r 0 y] v [W] u = true.
  Proof.
    intros (P & _ & _) Es L. eexists. exists ((eval (0 :: match polys r with [] => [- y] | c :: cs => (c - y) :: cs end) tau)%fld ** g1)%grp. split; [reflexivity|]. split.
    - apply (commit_ok _ g1 tau n _ P). destruct (polys r); cbn [length] in *; lia.
    - assert (E : eval (0 :: match polys r with [] => [- y] | c :: cs => (c - y) :: cs end) tau = tau * (eval (polys r) tau - y)).
      { rewrite eval_cons. destruct (polys r) as [|c cs]; rewrite !eval_cons, ?eval_nil; ring. }
      rewrite E. clear E. unfold gwc_verify, committed. rewrite single_spec. cbn [map o_point firsts fold_left existsb app length Nat.ltb Nat.leb combine].
      cbn [combine fold_left]. unfold gwc_step. rewrite (opening_batch_ok g1 (fun r => eval (polys r) tau)). cbn [s_opening s_commitment s_aux s_witness s_power fst snd].
      unfold vals_at, comm_at, single_group. cbn [g_points g_polys filter o_point]. rewrite feqb_refl. cbn [map o_ref o_value fst snd nth]. rewrite !eval_cons, !eval_nil.
      unfold pcs_reload, pcs_of_parts. cbn [p_arr0 p_arr1]. rewrite Es, gt_eqb_eq, !gadd_zero, !gneg_scalar, <- !gmul_mul, <- !gmul_add_l, <- (gmul_one K G2 g2) at 1.
      rewrite !pair_scalars, <- gmul_add_l. etransitivity; [|apply gmul_0]. f_equal. ring.
  Qed.

  Lemma gwc_completeness (g1 : G1) (g2 : G2) (p : pcs G1 G2) (tau : K) n (md threads : Z) (polys : nat -> list K) (os : list (opening K)) (v : K) :
    (0 < threads < 128)%Z -> (0 <= md < 2 ^ 62)%Z -> (Z.of_nat n <= md + 1)%Z -> set_up p g1 g2 tau n -> fit polys os n -> (forall o, In o os -> holds polys o) ->
    exists proof, gwc_prove md threads p no_batch polys os v = Some (no_batch, Some proof) /\ forall rest u, gwc_verify e g1 p (committed polys tau g1) os v (proof ++ rest) u = true.
  Proof.
    intros Ht Hmd Hn S F H. destruct (gwc_complete_lemma e g1 g2 md threads polys n os Ht Hmd Hn F H p tau v 0 [] S) as (proof & E & _).
    exists proof. split; [exact E|]. intros rest u. destruct (gwc_complete_lemma e g1 g2 md threads polys n os Ht Hmd Hn F H p tau v u rest S) as (proof' & E' & V). rewrite E in E'. injection E' as <-. exact V.
  Qed.
  Lemma shplonk_completeness (g1 : G1) (g2 : G2) (p : pcs G1 G2) (tau : K) n (md threads : Z) (ltb : K -> K -> bool) (polys : nat -> list K) (o : opening K) (os : list (opening K)) (y v u : K) :
    (0 < threads < 128)%Z -> (0 <= md < 2 ^ 62)%Z -> (Z.of_nat n <= md + 1)%Z -> orders ltb -> opened_at_most (o :: os) (md + 1) -> (Z.of_nat (length (o :: os)) < 2 ^ 61)%Z ->
    set_up p g1 g2 tau n -> fit polys (o :: os) n -> (forall o', In o' (o :: os) -> holds polys o') ->
    (forall o', In o' (o :: os) -> o_point o' = u -> exists o'', In o'' (o :: os) /\ o_ref o'' = o_ref o /\ o_point o'' = u) ->
    exists h q, shplonk_prove md threads ltb p polys (o :: os) y v u = Some (Some (h, q)) /\ shplonk_verify md threads ltb e g1 p (committed polys tau g1) (o :: os) y v h u q = Some true.
  Proof.
    intros Ht Hmd Hn Ho Hop Hl S F H Hu. destruct (pt_sets_head ltb o os) as (others & Ep).
    apply (shplonk_complete_lemma e g1 g2 md threads ltb (o :: os) Ht Hmd Ho Hop Hl polys n Hn F H p tau y v u _ others S Ep).
    intros I. destruct (super_facts ltb Ho (o :: os)) as (_ & _ & _ & M). apply (proj1 (M u)) in I. apply in_map_iff in I. destruct I as (o' & E & I). apply (pts_of_in ltb Ho). exact (Hu o' I E).
  Qed.
  Lemma shplonk_bad_challenge (g1 : G1) (p : pcs G1 G2) (md threads : Z) (ltb : K -> K -> bool) (comms : nat -> G1) (o : opening K) (os : list (opening K)) (y v : K) h u q :
    (0 < threads < 128)%Z -> orders ltb -> (Z.of_nat (length (o :: os)) < 2 ^ 61)%Z ->
    (exists o', In o' (o :: os) /\ o_point o' = u) -> (forall o', In o' (o :: os) -> o_ref o' = o_ref o -> o_point o' <> u) ->
    shplonk_verify md threads ltb e g1 p comms (o :: os) y v h u q = None.
  Proof.
    intros Ht Ho Hl (o' & I & E) N. destruct (pt_sets_head ltb o os) as (others & Ep).
    apply (shplonk_aborts e g1 md threads ltb (o :: os) Ht Ho Hl p comms y v h u q _ others Ep).
    - destruct (super_facts ltb Ho (o :: os)) as (_ & _ & _ & M). apply (M u). apply in_map_iff. exists o'. auto.
    - intros H. apply (pts_of_in ltb Ho) in H. destruct H as (o'' & I'' & R & P). exact (N o'' I'' R P).
  Qed.
  Lemma grouping_single (os : list (opening K)) : exists xs : list K, NoDup xs /\ (forall x, In x xs <-> In x (map o_point os)) /\
    group_by_single_point os = map (fun x => mk_grouped (map (fun o => (o_ref o, [o_value o])) (filter (fun o => feqb (o_point o) x) os)) [x]) xs.
  Proof.
    exists (firsts K feqb (map o_point os)). split; [apply firsts_nodup; exact (fun a b => feqb_eq K a b)|]. split; [|exact (single_spec os)].
    intros x. apply firsts_in. exact (fun a b => feqb_eq K a b).
  Qed.
  Lemma grouping_multi (ltb : K -> K -> bool) (os : list (opening K)) : orders ltb -> exists gs, group_by_oracle_and_points ltb os = Some gs /\
    (forall g, In g gs -> g_polys g <> [] /\ StronglySorted (fun x y => ltb x y = true) (g_points g)) /\
    NoDup (map g_points gs) /\ NoDup (concat (map (fun g => map fst (g_polys g)) gs)) /\
    (forall o, In o os -> exists g vals, In g gs /\ In (o_ref o, vals) (g_polys g)) /\
    (forall g r vals, In g gs -> In (r, vals) (g_polys g) -> (forall x, In x (g_points g) <-> exists o, In o os /\ o_ref o = r /\ o_point o = x) /\ length vals = length (g_points g) /\
       forall k, (k < length vals)%nat -> exists o, first_claim os o /\ o_ref o = r /\ o_point o = nth k (g_points g) 0 /\ o_value o = nth k vals 0).
  Proof.
    intros Ho. exists (map (multi_group ltb os) (pt_sets ltb os)). split; [apply multi_spec; exact Ho|].
    assert (NP : NoDup (pt_sets ltb os)) by (apply firsts_nodup; apply set_eqb_eq). split; [|split; [|split; [|split]]].
    - intros g H. apply in_map_iff in H. destruct H as (pts & <- & H). destruct (multi_facts ltb Ho os pts H) as (S & _ & _ & _ & _ & NR). split; [|exact S].
      cbn [multi_group g_polys]. intros E. apply NR. destruct (refs_at ltb os pts); [reflexivity|discriminate E].
    - rewrite map_map. cbn [multi_group g_points]. rewrite map_id. exact NP.
    - rewrite map_map. assert (E : map (fun pts => map fst (g_polys (multi_group ltb os pts))) (pt_sets ltb os) = map (refs_at ltb os) (pt_sets ltb os)).
      { apply map_ext. intros pts. cbn [multi_group g_polys]. rewrite map_map. cbn [fst]. apply map_id. }
      rewrite E. clear E. assert (NR : NoDup (refs_of os)) by (apply firsts_nodup; apply Nat.eqb_eq). induction (pt_sets ltb os) as [|pts l IH]; cbn [map concat]; [constructor|].
      inversion NP as [|? ? Hn NP']; subst. apply BatchProof2.NoDup_app'.
      + unfold refs_at. apply NoDup_filter. exact NR.
      + apply IH. exact NP'.
      + intros r H1 H2. apply in_concat in H2. destruct H2 as (m & Hm & H2). apply in_map_iff in Hm. destruct Hm as (pts' & <- & Hp). apply refs_at_in in H1. apply refs_at_in in H2.
        destruct H1 as [_ H1]. destruct H2 as [_ H2]. apply Hn. rewrite <- H1, H2. exact Hp.
    - intros o H. destruct (multi_cover ltb Ho os o H) as (H1 & H2 & _). eexists. exists (map (claimed os (o_ref o)) (pts_of ltb os (o_ref o))). split; [apply in_map; exact H1|].
      cbn [multi_group g_polys]. apply in_map_iff. exists (o_ref o). auto.
    - intros g r vals Hg Hr. apply in_map_iff in Hg. destruct Hg as (pts & <- & Hp). destruct (member ltb os pts r vals Hr) as (R & <- & ->). cbn [multi_group g_points].
      split; [intros x; apply pts_of_in; exact Ho|]. rewrite map_length. split; [reflexivity|]. intros k Hk.
      destruct (claimed_spec ltb Ho os r (nth k (pts_of ltb os r) 0)) as (o & F & Er & Ex & _ & Ev); [apply nth_In; exact Hk|]. exists o. split; [exact F|]. split; [exact Er|]. split; [exact Ex|].
      rewrite (nth_indep (map (claimed os r) (pts_of ltb os r)) 0 (claimed os r 0)) by (rewrite map_length; exact Hk). rewrite map_nth. symmetry. exact Ev.
  Qed.
End Extra.
