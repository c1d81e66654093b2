(** Proofs about SHPlonk. *)
From Coq Require Import ZArith Lia List Bool Arith Sorted Permutation Ring Field Field_theory.
From Verif Require Import Field PolySpec PolyModel PolyProof3 PolyProof4 GrothModel GrothProof KzgModel KzgSpec KzgProof KzgProof2 KzgProof3 KzgProof4.
Import ListNotations.
Open Scope fld_scope.

Section Shplonk.
  Context {K : fld} {G1 G2 GT : group K} (e : pairing G1 G2 GT).
  Add Field Kk7 : (fld_theory K).
  Variables (g1 : G1) (g2 : G2) (md threads : Z) (ltb : K -> K -> bool) (os : list (opening K)).
  Hypothesis Ht : (0 < threads < 128)%Z.
  Hypothesis Hmd : (0 <= md < 2 ^ 62)%Z.
  Hypothesis Ho : orders ltb.
  Hypothesis Hop : opened_at_most os (md + 1).
  Hypothesis Hlen : (Z.of_nat (length os) < 2 ^ 61)%Z.
  Local Notation super := (super_points ltb os).
  Local Notation pset := (pt_sets ltb os).
  Local Notation mg := (multi_group ltb os).
  Definition zprod (x : K) (l : list K) : K := fprod (map (fun t => x - t) l).
  Lemma zprod_zero x l : zprod x l = 0 <-> In x l.
  Proof.
    unfold zprod. induction l as [|t l IH]; cbn [map fprod In]; [split; [intros H; destruct (f1_neq_0 K H)|intros []]|]. split.
    - intros H. destruct (fmul_integral K _ _ H) as [E|E]; [left; symmetry; exact (proj1 (fsub_eq0 K _ _) E)|right; apply IH; exact E].
    - intros [->|H]; [ring|]. rewrite (proj2 IH H). ring.
  Qed.
  Lemma size_ok (l : list K) : (Z.of_nat (length l) <= 2 ^ 62)%Z -> (2 * Z.of_nat (length l) + threads < 2 ^ 64)%Z.
  Proof using Ht. clear Hop Hlen. change (2 ^ 62)%Z with 4611686018427387904%Z. change (2 ^ 64)%Z with 18446744073709551616%Z. lia. Qed.
  Lemma vanish_ok (l : list K) x : (length l <= length os)%nat -> vanishing_by_roots threads l x = zprod x l.
  Proof using Ht Hlen. intros L. apply vanishing_spec; [lia|]. apply size_ok. change (2 ^ 61)%Z with 2305843009213693952%Z in Hlen. change (2 ^ 62)%Z with 4611686018427387904%Z. lia. Qed.
  Lemma super_len : (length super <= length os)%nat. Proof using Ho. apply super_facts. exact Ho. Qed.
  Lemma diffs_len pts : (length (diffs super pts) <= length os)%nat.
  Proof using Ho.
    pose proof super_len as H. etransitivity; [|exact H]. unfold diffs. clear H. induction super as [|x l IH]; [reflexivity|]. cbn [filter]. destruct (negb _); cbn [length]; lia.
  Qed.
  Lemma zprod_split pts x : In pts pset -> zprod x (diffs super pts) * zprod x pts = zprod x super.
  Proof using Ho.
    intros H. destruct (multi_facts ltb Ho os pts H) as (_ & N & _ & _ & I & _). destruct (super_facts ltb Ho os) as (_ & NS & _ & _).
    unfold zprod. rewrite (fprod_perm K _ _ (Permutation_map _ (diffs_perm super pts NS N I))), map_app, fprod_app. ring.
  Qed.
  Lemma diffs_split pts : In pts pset -> (length pts + length (diffs super pts) = length super)%nat.
  Proof using Ho.
    intros H. destruct (multi_facts ltb Ho os pts H) as (_ & N & _ & _ & I & _). destruct (super_facts ltb Ho os) as (_ & NS & _ & _).
    rewrite (Permutation_length (diffs_perm super pts NS N I)), app_length. reflexivity.
  Qed.
  Lemma points_bound pts : In pts pset -> (Z.of_nat (length pts) <= md + 1)%Z.
  Proof using Ho Hop.
    intros H. destruct (multi_facts ltb Ho os pts H) as (_ & N & _). apply pt_sets_in in H. destruct H as (r & _ & <-). apply (Hop r); [exact N|].
    intros x Hx. apply pts_of_in in Hx; assumption.
  Qed.
  Lemma member pts r vals : In (r, vals) (g_polys (mg pts)) -> In r (refs_of os) /\ pts_of ltb os r = pts /\ vals = map (claimed os r) pts.
  Proof.
    cbn [multi_group g_polys]. rewrite in_map_iff. intros (r' & E & H). apply refs_at_in in H. destruct H as [H1 H2]. injection E as <- <-. auto.
  Qed.
  Lemma multi_good polys n pts : In pts pset -> fit polys os n -> good_group md polys n (mg pts).
  Proof using Ho Hop.
    intros H Hf. destruct (multi_facts ltb Ho os pts H) as (_ & N & NE & _ & _ & NR). split; [exact NE|]. split; [exact N|]. split; [apply points_bound; exact H|].
    split; [cbn [multi_group g_polys]; intros E; apply NR; destruct (refs_at ltb os pts); [reflexivity|discriminate E]|].
    intros r vals Hr. destruct (member pts r vals Hr) as (R & _ & ->). rewrite map_length. apply refs_of_in in R. destruct R as (o & Io & <-). destruct (Hf o Io). auto.
  Qed.
  Lemma multi_shape pts : In pts pset -> good_group md (fun _ => []) 0 (mg pts).
  Proof using Ho Hop. intros H. apply multi_good; [exact H|]. intros o _. split; [|cbn; lia]. exact (f1_neq_0 K). Qed.

  (** ** What the verifier checks *)
  Definition l_at (c : nat -> K) (y u : K) (pts : list K) : K := eval (map (fun p => c (fst p) - eval (lde md threads pts (snd p)) u) (g_polys (mg pts))) y.
  Lemma lde_evaluates pts r vals u : In pts pset -> In (r, vals) (g_polys (mg pts)) -> dense_evaluate threads (lde md threads pts vals) u = eval (lde md threads pts vals) u.
  Proof using Ht Hmd Ho Hop.
    intros H Hr. destruct (multi_shape pts H) as (H1 & H2 & H3 & _ & H5). destruct (H5 r vals Hr) as (_ & _ & Lv). cbn [multi_group g_points] in *.
    destruct (lde_ok md threads Ht Hmd pts vals H1 H2 H3 Lv) as (_ & _ & Ll & _). apply evaluate_spec; [lia|]. apply size_ok. lia.
  Qed.
  Lemma l_commit_ok (c : nat -> K) y u pts : In pts pset -> l_commitment md threads g1 (fun r => (c r ** g1)%grp) y u (mg pts) = Some (l_at c y u pts ** g1)%grp.
  Proof using Ht Hmd Ho Hop.
    intros H. unfold l_commitment. rewrite (extensions_ok md threads Ht Hmd _ _ _ (multi_shape pts H)). rewrite combine_map_self. f_equal. unfold l_at.
    change (g_points (mg pts)) with pts.
    assert (E : forall p, In p (g_polys (mg pts)) -> dense_evaluate threads (lde md threads pts (snd p)) u = eval (lde md threads pts (snd p)) u) by (intros [r vals] Hp; exact (lde_evaluates pts r vals u H Hp)).
    induction (g_polys (mg pts)) as [|p l IH].
    - cbn [map rev fold_left]. rewrite eval_nil, gmul_0. reflexivity.
    - cbn [map rev]. unfold dense in *. rewrite fold_left_app, IH by (intros q Hq; apply E; right; exact Hq). cbn [fold_left fst snd]. rewrite (E p (or_introl eq_refl)), eval_cons.
      rewrite gneg_scalar, <- gmul_mul, <- !gmul_add_l. f_equal. ring.
  Qed.
  Lemma normalized_ok (c : nat -> K) y u inv : forall l, (forall pts, In pts l -> In pts pset) ->
    normalized md threads g1 (fun r => (c r ** g1)%grp) super y u inv (map mg l) = Some (map (fun pts => ((zprod u (diffs super pts) * inv * l_at c y u pts)%fld ** g1)%grp) l).
  Proof using Ht Hmd Ho Hop Hlen.
    induction l as [|pts l IH]; intros H; [reflexivity|]. cbn [map normalized]. rewrite l_commit_ok by (apply H; left; reflexivity). rewrite IH by (intros q Hq; apply H; right; exact Hq).
    cbn [option_map]. change (g_points (mg pts)) with pts. rewrite vanish_ok by apply diffs_len. rewrite <- gmul_mul. reflexivity.
  Qed.
  Lemma lc_points_ok (v : K) : forall ss : list K, ss <> [] -> lc_points (map (fun s => (s ** g1)%grp) ss) v = Some (eval ss v ** g1)%grp.
  Proof.
    intros ss Hs. unfold lc_points. rewrite <- map_rev. rewrite <- (rev_involutive ss) at 2. assert (Hr : rev ss <> []) by (intros E; apply Hs; rewrite <- (rev_involutive ss), E; reflexivity).
    destruct (rev ss) as [|a l] eqn:E; [contradiction|]. clear Hs Hr E. cbn [map]. f_equal.
    induction l as [|b l IH] using rev_ind.
    - cbn [map fold_left rev app]. rewrite eval_cons, eval_nil. f_equal. ring.
    - rewrite map_app, fold_left_app. cbn [map fold_left]. rewrite IH. change (a :: l ++ [b]) with ((a :: l) ++ [b]). rewrite rev_app_distr. cbn [rev app]. rewrite eval_cons, <- gmul_mul, <- gmul_add_l. f_equal. ring.
  Qed.
  (** The scalar of the pairing check, times the value of the vanishing polynomial of the points outside the first group. *)
  Definition shplonk_term (c : nat -> K) (tau y v h u q : K) (first : list K) : K :=
    zprod u (diffs super first) * (tau - u) * q - (eval (map (fun pts => zprod u (diffs super pts) * l_at c y u pts) pset) v - zprod u super * h).
  Lemma shplonk_scalars (c : nat -> K) (p : pcs G1 G2) tau y v h u q first others : pset = first :: others -> p_arr0 p = (tau ** g2)%grp -> p_arr1 p = (- g2)%grp ->
    (In u super -> In u first) -> exists b, shplonk_verify md threads ltb e g1 p (fun r => (c r ** g1)%grp) os y v (h ** g1)%grp u (q ** g1)%grp = Some b /\
    (b = true <-> (shplonk_term c tau y v h u q first ** e g1 g2)%grp = gzero).
  Proof using Ht Hmd Ho Hop Hlen.
    intros Ep E0 E1 Hu. unfold shplonk_verify. rewrite (multi_spec ltb Ho), Ep. cbn [map]. change (g_points (mg first)) with first.
    assert (If : In first pset) by (rewrite Ep; left; reflexivity). destruct (multi_facts ltb Ho os first If) as (_ & _ & _ & Lf & _).
    rewrite !vanish_ok by (try apply diffs_len; exact Lf). set (z0 := zprod u (diffs super first)).
    assert (Hz : z0 <> 0). { intros E. apply zprod_zero in E. apply diffs_in in E. destruct E as [A B]. exact (B (Hu A)). }
    rewrite (proj2 (feqb_neq K _ _) Hz), (l_commit_ok c y u first If), normalized_ok by (intros q' H'; rewrite Ep; right; exact H').
    assert (El : ((1 ** (l_at c y u first ** g1))%grp :: map (fun pts => ((zprod u (diffs super pts) * finv z0 * l_at c y u pts)%fld ** g1)%grp) others) =
                 map (fun s : K => (s ** g1)%grp) (map (fun pts => finv z0 * (zprod u (diffs super pts) * l_at c y u pts)) pset)).
    { rewrite Ep, map_map. cbn [map]. f_equal; [rewrite <- gmul_mul; f_equal; fold z0; field; exact Hz|]. apply map_ext. intros pts. f_equal. ring. }
    rewrite El, lc_points_ok by (rewrite Ep; discriminate). eexists. split; [reflexivity|]. rewrite gt_eqb_eq, E0, E1, gneg_scalar, <- !gmul_mul, <- !gmul_add_l, (gneg_mul g2), !pair_scalars, <- gmul_add_l.
    rewrite (horner_map_scale K (fun pts => zprod u (diffs super pts) * l_at c y u pts)).
    unfold shplonk_term. fold z0. rewrite <- (zprod_split first u If). fold z0. set (S := eval _ v). set (zf := zprod u first).
    match goal with |- (?a ** _)%grp = _ <-> (?b ** _)%grp = _ => assert (E : b = z0 * a) by (field; exact Hz); assert (E' : a = finv z0 * b) by (rewrite E; field; exact Hz) end.
    split; intros H.
    - rewrite E, gmul_mul, H. apply gmul_zero.
    - rewrite E', gmul_mul, H. apply gmul_zero.
  Qed.
  Lemma shplonk_aborts (p : pcs G1 G2) (comms : nat -> G1) y v h u q first others : pset = first :: others -> In u super -> ~ In u first ->
    shplonk_verify md threads ltb e g1 p comms os y v h u q = None.
  Proof using Ht Ho Hlen.
    intros Ep Hu Hn. unfold shplonk_verify. rewrite (multi_spec ltb Ho), Ep. cbn [map]. change (g_points (mg first)) with first. rewrite vanish_ok by apply diffs_len.
    rewrite (proj2 (zprod_zero u (diffs super first))) by (apply diffs_in; auto). rewrite feqb_refl. reflexivity.
  Qed.

  (** ** Completeness *)
  Section Complete.
    Variables (polys : nat -> list K) (n : nat).
    Hypothesis Hn : (Z.of_nat n <= md + 1)%Z.
    Hypothesis Hfit : fit polys os n.
    Hypothesis Htrue : forall o, In o os -> holds polys o.
    Lemma multi_true pts : In pts pset -> true_group polys (mg pts).
    Proof using Htrue Ho.
      intros H r vals k Hr Hk. destruct (member pts r vals Hr) as (R & E & ->). change (g_points (mg pts)) with pts in *. rewrite (nth_indep (map (claimed os r) pts) 0 (claimed os r 0)) by (rewrite map_length; exact Hk). rewrite map_nth.
      destruct (claimed_spec ltb Ho os r (nth k pts 0)) as (o & F & <- & Ex & _ & ->); [rewrite E; apply nth_In; exact Hk|]. rewrite <- Ex. apply Htrue. apply first_claim_in. exact F.
    Qed.
    Lemma l_poly_ok pts y u : In pts pset -> exists l, l_poly md threads polys super y u (mg pts) (map (fun p => lde md threads pts (snd p)) (g_polys (mg pts))) = Some (zprod u (diffs super pts), l) /\
      okp K l /\ (length l <= Nat.max n 1)%nat /\ forall x, eval l x = zprod u (diffs super pts) * l_at (fun r => eval (polys r) x) y u pts.
    Proof using Ht Hmd Ho Hop Hlen Hn Hfit.
      intros H. unfold l_poly. change (g_points (mg pts)) with pts. rewrite vanish_ok by apply diffs_len. rewrite combine_map_self, map_map. cbn [fst snd].
      destruct (multi_good polys n pts H Hfit) as (H1 & H2 & H3 & H4 & H5).
      assert (E : exists ms, all_some (map (fun p => minus_constant md (polys (fst p)) (dense_evaluate threads (lde md threads pts (snd p)) u)) (g_polys (mg pts))) = Some ms /\ (ms = [] -> g_polys (mg pts) = []) /\
                    Forall (okp K) ms /\ Forall (fun p => (length p <= Nat.max n 1)%nat) ms /\
                    forall x, map (fun p => eval p x) ms = map (fun p => eval (polys (fst p)) x - eval (lde md threads pts (snd p)) u) (g_polys (mg pts))).
      { assert (HE : forall r vals, In (r, vals) (g_polys (mg pts)) -> canonical (polys r) /\ (length (polys r) <= n)%nat /\ dense_evaluate threads (lde md threads pts vals) u = eval (lde md threads pts vals) u).
        { intros r vals Hr. destruct (H5 r vals Hr) as (A & B & _). split; [exact A|]. split; [exact B|]. exact (lde_evaluates pts r vals u H Hr). }
        clear H4 H5. induction (g_polys (mg pts)) as [|[r vals] l IH]; [exists []; repeat split; constructor|].
        destruct IH as (ms & E & _ & F1 & F2 & V); [intros r' v' H'; apply (HE r' v'); right; exact H'|]. destruct (HE r vals (or_introl eq_refl)) as (C & L & Ev).
        destruct (minus_c K md (polys r) (eval (lde md threads pts vals) u) C ltac:(lia)) as (m & Em & Om & Lm & Vm).
        exists (m :: ms). cbn [map all_some fst snd]. rewrite Ev, Em, E. split; [reflexivity|]. split; [discriminate|]. split; [constructor; assumption|].
        split; [constructor; [lia|assumption]|]. intros x. cbn [map fst snd]. rewrite Vm, V. reflexivity. }
      destruct E as (ms & -> & Hne & F1 & F2 & V). destruct (lc_polys_spec K y (Nat.max n 1) ms) as (l & -> & Ol & Ll & Vl); [intros E; apply H4, Hne, E|assumption..|].
      destruct (mul_s K md l (zprod u (diffs super pts)) Ol) as (m & -> & Om & Lm & Vm); [apply (degree_le K md l (Nat.max n 1)); lia|].
      exists m. cbn [option_map]. split; [reflexivity|]. split; [exact Om|]. split; [lia|]. intros x. rewrite Vm, Vl, V. unfold l_at. ring.
    Qed.
    Lemma shplonk_complete_lemma (p : pcs G1 G2) tau y v u first others : set_up p g1 g2 tau n -> pset = first :: others -> (In u super -> In u first) ->
      exists h q, shplonk_prove md threads ltb p polys os y v u = Some (Some (h, q)) /\ shplonk_verify md threads ltb e g1 p (committed polys tau g1) os y v h u q = Some true.
    Proof using Ht Hmd Ho Hop Hlen Hn Hfit Htrue.
      intros (Hk & E0 & E1) Ep Hu. unfold shplonk_prove. rewrite (multi_spec ltb Ho). rewrite map_map.
      set (ldes := fun pts => map (fun p => lde md threads pts (snd p)) (g_polys (mg pts))).
      set (w_of := fun pts => match combined md threads polys (mg pts) y with Some (_, w) => w | None => [] end).
      assert (Hw : forall pts, In pts pset -> combined md threads polys (mg pts) y = Some (ldes pts, w_of pts) /\ canonical (w_of pts) /\ (length (w_of pts) <= n)%nat /\
                     forall x, numerator md threads polys (mg pts) y x = eval (w_of pts) x * zprod x pts).
      { intros pts H. destruct (combined_ok md threads Ht Hmd polys n (mg pts) y (multi_good polys n pts H Hfit) (multi_true pts H) Hn) as (w & E & C & L & V). unfold w_of. rewrite E. auto. }
      rewrite (all_some_ext _ (fun pts => (ldes pts, w_of pts))) by (intros pts H; apply (Hw pts H)). rewrite map_map. cbn [snd]. change (fun x : list K => w_of x) with w_of.
      assert (Ne : forall B (f : list K -> B), map f pset <> []) by (intros B f; rewrite Ep; discriminate).
      destruct (lc_polys_spec K v n (map w_of pset) (Ne _ _)) as (hp & -> & Oh & Lh & Vh).
      { apply Forall_forall. intros w H. apply in_map_iff in H. destruct H as (pts & <- & H). left. apply (Hw pts H). }
      { apply Forall_forall. intros w H. apply in_map_iff in H. destruct H as (pts & <- & H). apply (Hw pts H). }
      rewrite (commit_ok (p_kzg p) g1 tau n hp Hk Lh).
      set (l_of := fun pts => match l_poly md threads polys super y u (mg pts) (ldes pts) with Some (_, l) => l | None => [] end).
      assert (Hl : forall pts, In pts pset -> l_poly md threads polys super y u (mg pts) (ldes pts) = Some (zprod u (diffs super pts), l_of pts) /\ okp K (l_of pts) /\ (length (l_of pts) <= Nat.max n 1)%nat /\
                     forall x, eval (l_of pts) x = zprod u (diffs super pts) * l_at (fun r => eval (polys r) x) y u pts).
      { intros pts H. destruct (l_poly_ok pts y u H) as (l & E & O & L & V). unfold l_of, ldes. rewrite E. auto. }
      assert (Ec : combine (map mg pset) (map (fun pts => (ldes pts, w_of pts)) pset) = map (fun pts => (mg pts, (ldes pts, w_of pts))) pset).
      { clear. induction pset as [|a l IH]; cbn [map combine]; [reflexivity|]. rewrite IH. reflexivity. }
      rewrite Ec, map_map. cbn [fst snd]. rewrite (all_some_ext _ (fun pts => (zprod u (diffs super pts), l_of pts))) by (intros pts H; apply (Hl pts H)). rewrite map_map. cbn [snd]. change (fun x : list K => l_of x) with l_of.
      destruct (lc_polys_spec K v (Nat.max n 1) (map l_of pset) (Ne _ _)) as (lp & -> & Ol & Ll & Vl).
      { apply Forall_forall. intros w H. apply in_map_iff in H. destruct H as (pts & <- & H). apply (Hl pts H). }
      { apply Forall_forall. intros w H. apply in_map_iff in H. destruct H as (pts & <- & H). apply (Hl pts H). }
      rewrite vanish_ok by apply super_len. destruct (mul_ip K hp (zprod u super) Oh) as (Om & Lm & Vm).
      destruct (sub_ip K md lp _ Ol Om) as (d & -> & Od & Ld & Vd); [apply (degree_le K md _ n); lia|].
      assert (Dx : forall x, eval d x = eval (map (fun pts => zprod u (diffs super pts) * l_at (fun r => eval (polys r) x) y u pts) pset) v - zprod u super * eval hp x).
      { intros x. rewrite Vd, Vm, Vl, map_map. f_equal; [|ring]. f_equal. apply map_ext_in. intros pts H. apply (Hl pts H). }
      destruct (div_roots K md d [u]) as (vn & qp & -> & -> & Cq & Lq & Vq).
      - exact Od.
      - apply (degree_le K md d (Nat.max n 1)); lia.
      - discriminate.
      - repeat constructor. intros [].
      - intros x [<-|[]]. rewrite Dx, Vh, map_map. rewrite <- horner_map_scale, <- horner_map_sub. apply horner_all_zero. intros a Ha. apply in_map_iff in Ha. destruct Ha as (pts & <- & H).
        destruct (Hw pts H) as (_ & _ & _ & V). rewrite <- (zprod_split pts u H). assert (E : l_at (fun r => eval (polys r) u) y u pts = numerator md threads polys (mg pts) y u) by reflexivity.
        rewrite E, V. ring.
      - set (z0 := zprod u (diffs super first)). assert (Hz : z0 <> 0). { intros E. apply zprod_zero in E. apply diffs_in in E. destruct E as [A B]. exact (B (Hu A)). }
        assert (Eh : fst (hd (0, []) (map (fun pts => (zprod u (diffs super pts), l_of pts)) pset)) = z0) by (rewrite Ep; reflexivity).
        rewrite Eh. unfold dense_div_scalar_in_place, iszero. rewrite (proj2 (feqb_neq K _ _) Hz). destruct (mul_ip K qp (finv z0) (or_introl Cq)) as (Oq & Lq' & Vq'). cbn [length] in Lq.
        rewrite (commit_ok (p_kzg p) g1 tau n _ Hk) by lia. eexists. eexists. split; [reflexivity|].
        destruct (shplonk_scalars (fun r => eval (polys r) tau) p tau y v (eval hp tau) u (eval (dense_mul_scalar_in_place qp (finv z0)) tau) first others Ep E0 E1 Hu) as (b & Eb & Hb).
        unfold committed. rewrite Eb. f_equal. apply Hb. unfold shplonk_term. fold z0. rewrite <- Dx, Vq, Vq'. cbn [map fprod].
        replace (z0 * (tau - u) * (eval qp tau * finv z0) - eval qp tau * ((tau - u) * 1)) with (0 : K) by (field; exact Hz). apply gmul_0.
    Qed.
  End Complete.

  (** ** Soundness *)
  Lemma shplonk_sound_lemma (polys : nat -> list K) N (Sy Sv Su St : list K) : e g1 g2 <> gzero ->
    NoDup Sy -> NoDup Sv -> NoDup Su -> NoDup St -> (length os <= length Sy)%nat -> (length os <= length Sv)%nat -> (length os + N <= length Su)%nat -> (N < length St)%nat ->
    (forall o, In o os -> (length (polys (o_ref o)) <= N)%nat) ->
    (forall y v, In y Sy -> In v Sv -> exists h : list K, (length h <= N)%nat /\ forall u, In u Su -> exists q : list K, (length q <= N)%nat /\ forall tau, In tau St ->
       exists p : pcs G1 G2, set_up p g1 g2 tau N /\
         shplonk_verify md threads ltb e g1 p (committed polys tau g1) os y v (eval h tau ** g1)%grp u (eval q tau ** g1)%grp = Some true) ->
    forall o, first_claim os o -> holds polys o.
  Proof using Ht Hmd Ho Hop Hlen.
    intros He NY NV NU NT LY LV LU LT HN H o Hf. pose proof (first_claim_in os o Hf) as Io.
    destruct (multi_cover ltb Ho os o Io) as (Hg & Hr & Hx). set (pts := pts_of ltb os (o_ref o)) in *. set (t := o_point o) in *.
    destruct pset as [|first others] eqn:Ep; [destruct Hg|]. rewrite <- Ep in Hg.
    assert (Hnum : forall y, In y Sy -> numerator md threads polys (mg pts) y t = 0).
    { intros y Hy.
      assert (Hz : forall v, In v Sv -> eval (map (fun q => zprod t (diffs super q) * numerator md threads polys (mg q) y t) pset) v = 0).
      { intros v Hv. destruct (H y v Hy Hv) as (h & Lh & A). clear H.
        set (L := fun x => eval (map (fun q => zprod x (diffs super q) * numerator md threads polys (mg q) y x) pset) v - zprod x super * eval h x).
        assert (L0 : forall u, In u Su -> L u = 0).
        { intros u Hu. destruct (A u Hu) as (q & Lq & B). clear A.
          assert (Huf : In u super -> In u first).
          { intros Iu. destruct (in_dec (f_dec K) u first) as [I|I]; [exact I|]. exfalso. destruct St as [|tau St]; [cbn [length] in LT; lia|].
            destruct (B tau (or_introl eq_refl)) as (p & _ & V). rewrite (shplonk_aborts p _ y v _ u _ first others Ep Iu I) in V. discriminate V. }
          set (F := fun tau => shplonk_term (fun r => eval (polys r) tau) tau y v (eval h tau) u (eval q tau) first).
          assert (F0 : forall tau, In tau St -> F tau = 0).
          { intros tau Htau. destruct (B tau Htau) as (p & (_ & E0 & E1) & V).
            destruct (shplonk_scalars (fun r => eval (polys r) tau) p tau y v (eval h tau) u (eval q tau) first others Ep E0 E1 Huf) as (b & Eb & Hb).
            unfold committed in V. rewrite Eb in V. injection V as ->. destruct (gmul_eq_0 _ _ (proj1 Hb eq_refl)) as [E|E]; [exact E|contradiction]. }
          assert (F1 : F u = 0).
          { apply (isp_vanish K (S N) F St); [|exact NT|lia|exact F0]. unfold F, shplonk_term. apply isp_sub.
            - apply (isp_ext K _ (fun tau => zprod u (diffs super first) * ((tau - u) * eval q tau))); [|intros x; ring]. apply isp_scale. apply isp_shift. apply isp_list. exact Lq.
            - apply (isp_weaken K (Nat.max N 1)); [|lia]. apply isp_sub; [|apply isp_scale; apply isp_list; lia].
              apply (isp_horner K (Nat.max N 1) (fun pt tau => zprod u (diffs super pt) * l_at (fun r => eval (polys r) tau) y u pt)). intros pt Hpt. apply isp_scale.
              unfold l_at. apply (isp_horner K (Nat.max N 1) (fun pr tau => eval (polys (fst pr)) tau - eval (lde md threads pt (snd pr)) u)). intros [r vals] Hrv. cbn [fst snd].
              destruct (member pt r vals Hrv) as (R & _). apply refs_of_in in R. destruct R as (o' & Io' & <-). apply isp_sub; [apply isp_list; specialize (HN o' Io'); lia|].
              apply (isp_weaken K 1); [apply isp_const|lia]. }
          unfold F, shplonk_term in F1. unfold L. etransitivity; [|apply (f_equal fopp) in F1; etransitivity; [exact F1|ring]].
          change (fun q0 => zprod u (diffs super q0) * numerator md threads polys (mg q0) y u) with (fun q0 => zprod u (diffs super q0) * l_at (fun r => eval (polys r) u) y u q0). ring. }
        assert (L1 : forall x, L x = 0).
        { apply (isp_vanish K (N + length super) L Su); [|exact NU|pose proof super_len; lia|exact L0]. unfold L. apply isp_sub.
          - apply (isp_horner K (N + length super) (fun q x => zprod x (diffs super q) * numerator md threads polys (mg q) y x)). intros q Hq.
            pose proof (diffs_split q Hq) as Ds. apply (isp_weaken K (Nat.max N (length q) + length (diffs super q))); [|lia].
            apply (isp_ext K _ (fun x => numerator md threads polys (mg q) y x * fprod (map (fun r => x - r) (diffs super q)))); [|intros x; unfold zprod; ring].
            apply isp_roots. unfold numerator. apply (isp_horner K (Nat.max N (length q)) (fun pr x => eval (polys (fst pr)) x - eval (lde md threads q (snd pr)) x)). intros [r vals] Hrv. cbn [fst snd].
            destruct (member q r vals Hrv) as (R & _). apply refs_of_in in R. destruct R as (o' & Io' & <-). apply isp_sub; apply isp_list; [specialize (HN o' Io'); lia|].
            destruct (multi_shape q Hq) as (H1 & H2 & H3 & _ & H5). destruct (H5 _ vals Hrv) as (_ & _ & Lv). change (g_points (mg q)) with q in *.
            destruct (lde_ok md threads Ht Hmd q vals H1 H2 H3 Lv) as (_ & _ & Ll & _). lia.
          - apply (isp_ext K _ (fun x => eval h x * fprod (map (fun r => x - r) super))); [|intros x; unfold zprod; ring]. apply isp_roots. apply isp_list. exact Lh. }
        specialize (L1 t). unfold L in L1. rewrite (proj2 (zprod_zero t super)) in L1; [etransitivity; [|exact L1]; ring|].
        destruct (super_facts ltb Ho os) as (_ & _ & _ & I). apply I. apply in_map. exact Io. }
      assert (Z0 : zprod t (diffs super pts) * numerator md threads polys (mg pts) y t = 0).
      { apply (horner_zero K _ Sv NV) with (a := zprod t (diffs super pts) * numerator md threads polys (mg pts) y t) in Hz; [exact Hz|rewrite map_length; pose proof (pt_sets_length ltb os); lia|].
        apply in_map_iff. exists pts. split; [reflexivity|exact Hg]. }
      destruct (fmul_integral K _ _ Z0) as [E|E]; [|exact E]. apply zprod_zero in E. apply diffs_in in E. destruct E as [_ E]. contradiction. }
    unfold holds. apply (fsub_eq0 K). unfold numerator in Hnum.
    apply (horner_zero K _ Sy NY) with (a := eval (polys (o_ref o)) t - o_value o) in Hnum; [exact Hnum|rewrite map_length; cbn [multi_group g_polys]; rewrite map_length; pose proof (refs_at_length ltb os pts); lia|].
    apply in_map_iff. exists (o_ref o, map (claimed os (o_ref o)) pts). cbn [fst snd]. split.
    - f_equal. assert (Hm : In (o_ref o, map (claimed os (o_ref o)) pts) (g_polys (mg pts))) by (cbn [multi_group g_polys]; apply in_map_iff; exists (o_ref o); auto).
      destruct (multi_shape pts Hg) as (H1 & H2 & H3 & _ & H5). destruct (H5 _ _ Hm) as (_ & _ & Lv). change (g_points (mg pts)) with pts in *.
      destruct (lde_ok md threads Ht Hmd pts _ H1 H2 H3 Lv) as (_ & _ & _ & Iv). destruct (In_nth _ _ 0 Hx) as (k & Lk & Ek). rewrite <- Ek, (Iv k Lk).
      rewrite (nth_indep (map (claimed os (o_ref o)) pts) 0 (claimed os (o_ref o) 0)) by (rewrite map_length; exact Lk). rewrite map_nth, Ek. unfold claimed, t. rewrite (first_claim_get os o Hf). reflexivity.
    - cbn [multi_group g_polys]. apply in_map_iff. exists (o_ref o). auto.
  Qed.
End Shplonk.
