(** What an accepted query says about the committed matrices. *)
From Coq Require Import ZArith List Bool Lia Arith Sorting.Sorted Ring Field Field_theory.
From Verif Require Import Field BitsModel BitsSpec BitsExtra BitsProof ParallelizeModel ParallelizeProof SemigroupModel SemigroupExtra
  PolySpec PolyProof PolyProof3 FFTModel FFTSpec FFTProof FFTProof2 FFTProof4 FFTProof5 FFTExtra DomainSpec CosetModel CosetProof FriModel FriSpec FriProof FriProof2 FriExtra PcsModel PcsSpec PcsProof PcsProof2 PcsProof3 PcsProof4.
Import ListNotations.
Open Scope nat_scope.

Section Claims.
  Variable K : fld.
  Add Field Kpcs10 : (fld_theory K).
  Open Scope fld_scope.
  Variables (adicity : nat) (root shift : K) (lb : nat) (alpha : K).
  Hypothesis Had : (adicity < 62)%nat.
  Variable G : nat.
  Notation gen k := (generator adicity root k).
  Notation ht := (height lb).
  Notation row_point := (row_point adicity root shift).
  Notation qp := (quotient_points adicity root shift alpha).
  Notation qc := (quotient_claims adicity root shift alpha).
  Implicit Types (c : claim K) (cs : list (claim K)).

  Lemma update_entry_inv (E : nat -> list (nat * (K * K))) log f e m' : forall ls,
    StronglySorted (fun a b => (b < a)%nat) ls -> In log ls ->
    (forall l, E l = [] \/ exists v, E l = [(l, v)]) ->
    (E log = [] /\ e = (0, 1) \/ E log = [(log, e)]) ->
    update_entry K log f (flat_map E ls) = Some m' -> exists e', f e = Some e'.
  Proof using Type.
    clear. intros ls HS Hin HE He. revert m'. induction ls as [|l ls IH]; intros m' HU; [destruct Hin|]. apply StronglySorted_inv in HS. destruct HS as [HS HF].
    cbn [flat_map] in HU. destruct (f e) as [e'|] eqn:Ef; [exists e'; reflexivity|]. exfalso. destruct (Nat.eq_dec l log) as [->|Hl].
    - destruct He as [[H0 ->]|H1].
      + rewrite H0 in HU. cbn [app] in HU. assert (Hsm : Forall (fun b : nat * (K * K) => (fst b < log)%nat) (flat_map E ls)).
        { clear - HF HE. induction HF as [|b ls Hb HF IH]; [constructor|]. cbn [flat_map]. apply Forall_app. split; [|exact IH]. destruct (HE b) as [->|[v ->]]; constructor; [exact Hb|constructor]. }
        destruct (flat_map E ls) as [|[l0 v0] r]; cbn [update_entry] in HU; [rewrite Ef in HU; discriminate|]. apply Forall_cons_iff in Hsm. destruct Hsm as [Hsm _]. cbn [fst] in Hsm.
        rewrite (proj2 (Nat.eqb_neq _ _)) in HU by lia. rewrite (proj2 (Nat.ltb_lt _ _)) in HU by exact Hsm. rewrite Ef in HU. discriminate.
      + rewrite H1 in HU. cbn [app update_entry] in HU. rewrite Nat.eqb_refl, Ef in HU. discriminate.
    - destruct Hin as [->|Hin]; [congruence|]. rewrite Forall_forall in HF. pose proof (HF _ Hin) as HFl.
      assert (HI : update_entry K log f (flat_map E ls) = None).
      { destruct (update_entry K log f (flat_map E ls)) as [m''|] eqn:EU; [|reflexivity]. destruct (IH HS Hin m'' eq_refl) as [x Hx]. congruence. }
      destruct (HE l) as [H|[v H]]; rewrite H in HU; cbn [app] in HU; [congruence|]. cbn [update_entry] in HU.
      rewrite (proj2 (Nat.eqb_neq _ _)) in HU by exact Hl. rewrite (proj2 (Nat.ltb_ge _ _)) in HU by lia. rewrite HI in HU. discriminate.
  Qed.

  Lemma add_points_inv l r vi : forall zs values v off e, length values = length zs ->
    add_points K alpha (row_point l r) vi zs values (v, alpha ^ off) = Some e ->
    e = (v + qp l r off vi (combine zs values), alpha ^ (off + list_sum (map (@length K) values))).
  Proof using Type.
    clear Had. induction zs as [|z zs IH]; intros [|ys values] v off e HL H; cbn [length] in HL; try discriminate; cbn [add_points] in H.
    - injection H as <-. cbn [combine quotient_points map list_sum fold_right]. rewrite Nat.add_0_r. f_equal. ring.
    - destruct (feqb (row_point l r - z) 0) eqn:Ez; [discriminate|]. apply feqb_neq in Ez.
      destruct (Nat.eqb_spec (length ys) (length vi)) as [Ey|]; [|discriminate].
      rewrite add_columns_eval in H by exact Ey. rewrite <- fpow_add in H. apply IH in H; [|congruence]. rewrite H.
      cbn [combine quotient_points map]. change (list_sum (length ys :: map (@length K) values)) with (length ys + list_sum (map (@length K) values))%nat. rewrite Nat.add_assoc, Ey. f_equal. field. exact Ez.
  Qed.
  Lemma qc_app l r a b : forall off, qc l r off (a ++ b) = qc l r off a + qc l r (off + list_sum (map values_of a)) b.
  Proof using Type.
    clear Had. induction a as [|c a IH]; intros off; cbn [app quotient_claims map].
    - change (list_sum []) with 0%nat. rewrite Nat.add_0_r. ring.
    - rewrite IH. change (list_sum (values_of c :: map values_of a)) with (values_of c + list_sum (map values_of a))%nat. rewrite Nat.add_assoc. ring.
  Qed.

  Definition at_height cs l := filter (fun c => ht c =? l) cs.
  Definition entry index cs l : list (nat * (K * K)) :=
    if existsb (fun c => ht c =? l) cs then [(l, (qc l (Nat.div index (2 ^ (G - l))) 0%nat (at_height cs l), alpha ^ list_sum (map values_of (at_height cs l))))] else [].
  Definition table index cs : list (nat * (K * K)) := flat_map (entry index cs) (rev (seq 0 (S adicity))).
  Lemma check_matrix_inv index cs c d m' : well_formed adicity lb c -> d_log d = m_log c -> (index < 2 ^ G)%nat ->
    check_matrix K adicity root shift lb alpha G index (table index cs) d (m_points c) (m_values c) (nth (Nat.div index (2 ^ (G - ht c))) (m_rows c) []) = Some m' ->
    (ht c <= G)%nat /\ m' = table index (cs ++ [c]).
  Proof.
    intros (W1 & W2 & W3 & W4) Hd Hi H. unfold check_matrix in H. rewrite Hd in H. change (m_log c + lb)%nat with (ht c) in H. unfold reduced_index in H.
    destruct (Nat.ltb_spec G (ht c)) as [|HG]; [discriminate|]. split; [exact HG|].
    assert (Hil : (Nat.div index (2 ^ (G - ht c)) < 2 ^ ht c)%nat).
    { apply Nat.div_lt_upper_bound; [apply Nat.pow_nonzero; lia|]. rewrite <- Nat.pow_add_r. replace (G - ht c + ht c)%nat with G by lia. exact Hi. }
    assert (Hpos : (0 < ht c)%nat) by (unfold height; lia).
    set (r := Nat.div index (2 ^ (G - ht c))) in *.
    fold r in H. rewrite reverse_bits_len_nat in H by (first [exact Hil|lia]). rewrite root_spec' in H by lia.
    rewrite do_pow_fpow in H. 2:{ pose proof (brev_lt (ht c) r). pose proof (pow2_small (ht c) ltac:(lia)). lia. } rewrite Nat2Z.id in H.
    replace (shift * gen (ht c) ^ brev (ht c) r) with (row_point (ht c) r) in H by (unfold PcsSpec.row_point; rewrite brev_rev; reflexivity).
    set (old := qc (ht c) r 0%nat (at_height cs (ht c))) in *. set (off := list_sum (map values_of (at_height cs (ht c)))) in *.
    assert (HE : forall l, entry index cs l = [] \/ exists v, entry index cs l = [(l, v)]) by (intros l; unfold entry; destruct (existsb _ cs); [right; eexists; reflexivity|left; reflexivity]).
    assert (HC : entry index cs (ht c) = [] /\ (old, alpha ^ off) = (0, 1) \/ entry index cs (ht c) = [(ht c, (old, alpha ^ off))]).
    { unfold entry. destruct (existsb (fun c' => ht c' =? ht c) cs) eqn:EX; [right; reflexivity|left]. split; [reflexivity|].
      assert (at_height cs (ht c) = []) as EN.
      { unfold at_height. clear - EX. induction cs as [|a cs IH]; [reflexivity|]. cbn [existsb] in EX. apply orb_false_iff in EX. destruct EX as [E1 E2]. cbn [filter]. rewrite E1. apply IH, E2. }
      unfold old, off. rewrite EN. reflexivity. }
    assert (Hin : In (ht c) (rev (seq 0 (S adicity)))) by (apply -> in_rev; apply in_seq; lia).
    destruct (update_entry_inv (entry index cs) (ht c) _ (old, alpha ^ off) m' _ (PcsProof3.desc_sorted (S adicity)) Hin HE HC H) as (e' & Ee).
    pose proof (add_points_inv _ _ _ _ _ _ _ _ W4 Ee) as EV.
    assert (HA : forall l, at_height (cs ++ [c]) l = at_height cs l ++ (if ht c =? l then [c] else [])) by (intros l; unfold at_height; rewrite filter_app; reflexivity).
    assert (HX : forall l, existsb (fun c' => ht c' =? l) (cs ++ [c]) = existsb (fun c' => ht c' =? l) cs || (ht c =? l)) by (intros l; rewrite existsb_app; cbn [existsb]; rewrite orb_false_r; reflexivity).
    unfold table in H at 1. rewrite (update_entry_spec K (entry index cs) (entry index (cs ++ [c])) (ht c) _ (old, alpha ^ off) e' _ (PcsProof3.desc_sorted (S adicity)) Hin HE HC Ee) in H.
    - injection H as <-. reflexivity.
    - intros l Hl. unfold entry. rewrite HA, HX. rewrite (proj2 (Nat.eqb_neq _ _)) by congruence. rewrite orb_false_r, app_nil_r. reflexivity.
    - unfold entry. rewrite HA, HX, Nat.eqb_refl, orb_true_r. rewrite qc_app, map_app, list_sum_app. fold r. fold old off. rewrite EV. cbn [quotient_claims map list_sum fold_right plus].
      rewrite Nat.add_0_r. fold (values_of c). do 3 f_equal. ring.
  Qed.
  Lemma check_matrices_inv index : (index < 2 ^ G)%nat -> forall todo cs ds m', Forall (well_formed adicity lb) todo -> Forall2 (fun c d => d_log d = m_log c) todo ds ->
    check_matrices K adicity root shift lb alpha G index (table index cs) (map m_values todo) ds (map m_points todo) (map (fun c => nth (Nat.div index (2 ^ (G - ht c))) (m_rows c) []) todo) = Some m' ->
    Forall (fun c => (ht c <= G)%nat) todo /\ m' = table index (cs ++ todo).
  Proof.
    intros Hi. induction todo as [|c todo IH]; intros cs ds m' HW HD H; cbn [map check_matrices] in H.
    - injection H as <-. rewrite app_nil_r. split; [constructor|reflexivity].
    - inversion HD as [|? d ? ds' Hd HD']; subst. apply Forall_cons_iff in HW. destruct HW as [HWc HW].
      destruct (check_matrix _ _ _ _ _ _ _ _ _ _ _ _ _) as [m1|] eqn:E1; [|discriminate]. destruct (check_matrix_inv _ _ _ _ _ HWc Hd Hi E1) as (Hc & ->).
      destruct (IH _ _ _ HW HD' H) as (HF & ->). split; [constructor; assumption|]. rewrite <- app_assoc. reflexivity.
  Qed.

  Variables (ICom IPf : Type).
  Variable iverify : ICom -> list (nat * nat) -> nat -> list (list K) -> IPf -> bool.
  Lemma check_round_inv index cs todo com ds inp m' : (index < 2 ^ G)%nat -> Forall (well_formed adicity lb) todo -> Forall2 (fun c d => d_log d = m_log c /\ d_size d = (2 ^ m_log c)%nat) todo ds ->
    binds_matrices lb iverify com todo ->
    check_round K adicity root shift lb ICom IPf iverify alpha G index (table index cs) com ds (map m_points todo) (map m_values todo) inp = Some m' ->
    Forall (fun c => (ht c <= G)%nat) todo /\ m' = table index (cs ++ todo).
  Proof.
    intros Hi HW HD HB H. unfold check_round in H. assert (HLd : length ds = length todo) by (symmetry; eapply Forall2_length; exact HD).
    rewrite zip_reads_combine in H by (rewrite map_length; congruence).
    assert (Edims : map (fun p : list (list K) * domain K => (0, d_size (snd p) * 2 ^ lb)%nat) (combine (map m_values todo) ds) = map (fun c => (0, 2 ^ ht c)%nat) todo).
    { clear - HD. induction HD as [|e d l ds [H1 H2] Hds IH]; [reflexivity|]. cbn [map combine snd]. rewrite IH, H2, <- Nat.pow_add_r. reflexivity. }
    rewrite Edims in H. rewrite fold_max, map_map in H. cbn [snd] in H. rewrite Nat.max_0_l in H.
    destruct todo as [|c0 todo]; [cbn in H; discriminate|]. rewrite (list_max_pow ht (c0 :: todo)) in H by discriminate. set (all := c0 :: todo) in *.
    set (M := list_max (map ht all)) in *.
    assert (HM : (M <= adicity)%nat).
    { destruct (list_max_attained ht all) as (e & He & EM); [discriminate|]. fold M in EM. rewrite <- EM. rewrite Forall_forall in HW. apply (HW e He). }
    rewrite checked_log2_pow2 in H by lia. rewrite Nat2Z.id in H. unfold reduced_index in H. destruct (Nat.ltb_spec G M) as [|HMG]; [discriminate|].
    destruct (iverify com _ _ (fst inp) (snd inp)) eqn:EV; [|discriminate].
    assert (Him : (Nat.div index (2 ^ (G - M)) < 2 ^ M)%nat).
    { apply Nat.div_lt_upper_bound; [apply Nat.pow_nonzero; lia|]. rewrite <- Nat.pow_add_r. replace (G - M + M)%nat with G by lia. exact Hi. }
    rewrite (HB _ _ _ Him EV) in H. fold M in H.
    rewrite (map_ext_in (fun c => nth (Nat.div (Nat.div index (2 ^ (G - M))) (2 ^ (M - ht c))) (m_rows c) []) (fun c => nth (Nat.div index (2 ^ (G - ht c))) (m_rows c) [])) in H.
    - eapply check_matrices_inv; [exact Hi|exact HW| |exact H]. clear - HD. induction HD as [|c d l ds [H1 H2] HD IH]; constructor; assumption.
    - intros c Hc. f_equal. rewrite Nat.div_div by (apply Nat.pow_nonzero; lia). rewrite <- Nat.pow_add_r. do 2 f_equal.
      pose proof (list_max_in ht all c Hc) as HL. fold M in HL. lia.
  Qed.
  Lemma check_rounds_inv index : (index < 2 ^ G)%nat -> forall rounds cs coms dss inps m',
    Forall2 (fun com todo => Forall (well_formed adicity lb) todo /\ binds_matrices lb iverify com todo) coms rounds ->
    Forall2 (Forall2 (fun c d => d_log d = m_log c /\ d_size d = (2 ^ m_log c)%nat)) rounds dss ->
    check_rounds K adicity root shift lb ICom IPf iverify alpha G index (table index cs) coms dss (map (map m_points) rounds) (map (map m_values) rounds) inps = Some m' ->
    Forall (fun c => (ht c <= G)%nat) (concat rounds) /\ m' = table index (cs ++ concat rounds).
  Proof.
    intros Hi. induction rounds as [|todo rounds IH]; intros cs coms dss inps m' HC HD H.
    - inversion HC; subst. cbn in H. injection H as <-. rewrite app_nil_r. split; [constructor|reflexivity].
    - inversion HC as [|com ? coms' ? [HW HB] HC']; subst. inversion HD as [|? ds ? dss' Hds HD']; subst. cbn [map check_rounds] in H. destruct inps as [|inp inps]; [discriminate|].
      destruct (check_round _ _ _ _ _ _ _ _ _ _ _ _ _ _ _ _ _) as [m1|] eqn:E1; [|discriminate].
      destruct (check_round_inv _ _ _ _ _ _ _ Hi HW Hds HB E1) as (HF & ->). destruct (IH _ _ _ _ _ HC' HD' H) as (HF' & ->).
      cbn [concat]. split; [apply Forall_app; split; assumption|]. rewrite app_assoc. reflexivity.
  Qed.
  Lemma claimed_length cs l : length (claimed_vector adicity root shift lb alpha cs l) = (2 ^ l)%nat.
  Proof using Type. clear. unfold claimed_vector. rewrite map_length, seq_length. reflexivity. Qed.
  Lemma table_openings index cs : (index < 2 ^ G)%nat -> Forall (fun c => (ht c <= G)%nat) cs ->
    map (fun e => (fst e, fst (snd e))) (table index cs) = openings_at G index (claimed_vectors adicity root shift lb alpha cs).
  Proof using Type.
    clear Had. intros Hi HF. unfold table, openings_at, claimed_vectors. rewrite map_map. induction (rev (seq 0 (S adicity))) as [|l ls IH]; [reflexivity|]. cbn [flat_map filter].
    rewrite map_app, IH. unfold entry. destruct (existsb (fun c => ht c =? l) cs) eqn:EX; [|reflexivity]. cbn [map app fst snd]. f_equal. rewrite claimed_length, Nat.log2_pow2 by lia. f_equal.
    assert (Hl : (l <= G)%nat). { apply existsb_exists in EX. destruct EX as (c & Hc & E). apply Nat.eqb_eq in E. rewrite Forall_forall in HF. rewrite <- E. apply HF, Hc. }
    unfold claimed_vector. rewrite (tab_at (fun r => qc l r 0%nat (filter (fun c => ht c =? l) cs))); [reflexivity|].
    apply Nat.div_lt_upper_bound; [apply Nat.pow_nonzero; lia|]. rewrite <- Nat.pow_add_r. replace (G - l + l)%nat with G by lia. exact Hi.
  Qed.
  Lemma query_binds index rounds coms dss inp ro : (index < 2 ^ G)%nat ->
    Forall2 (fun com todo => Forall (well_formed adicity lb) todo /\ binds_matrices lb iverify com todo) coms rounds ->
    Forall2 (Forall2 (fun c d => d_log d = m_log c /\ d_size d = (2 ^ m_log c)%nat)) rounds dss ->
    check_openings K adicity root shift lb ICom IPf iverify alpha G coms dss (map (map m_points) rounds) (map (map m_values) rounds) index inp = Some ro ->
    Forall (fun c => (ht c <= G)%nat) (concat rounds) /\ ro = openings_at G index (claimed_vectors adicity root shift lb alpha (concat rounds)).
  Proof.
    intros Hi HC HD H. unfold check_openings in H. destruct inp as [inps|]; [|discriminate].
    assert (E0 : table index [] = []). { unfold table, entry. cbn [existsb]. induction (rev (seq 0 (S adicity))) as [|a l IH]; [reflexivity|exact IH]. }
    rewrite <- E0 in H. destruct (check_rounds _ _ _ _ _ _ _ _ _ _ _ _ _ _ _ _ _) as [m|] eqn:EM; [|discriminate]. injection H as <-.
    destruct (check_rounds_inv index Hi _ _ _ _ _ _ HC HD EM) as (HF & ->). cbn [app]. split; [exact HF|]. apply table_openings; assumption.
  Qed.
  Lemma claimed_decreasing cs : decreasing (claimed_vectors adicity root shift lb alpha cs).
  Proof using Type.
    clear Had. unfold decreasing, claimed_vectors. generalize (PcsProof3.desc_sorted (S adicity)). induction (rev (seq 0 (S adicity))) as [|l ls IH]; intros HS; [constructor|].
    apply StronglySorted_inv in HS. destruct HS as [HS HF]. cbn [filter]. destruct (existsb _ cs); [|apply IH, HS]. cbn [map]. constructor; [apply IH, HS|].
    apply Forall_forall. intros v Hv. apply in_map_iff in Hv. destruct Hv as (j & <- & Hj). apply filter_In in Hj. rewrite !claimed_length. rewrite Forall_forall in HF. specialize (HF j (proj1 Hj)).
    apply Nat.pow_lt_mono_r; lia.
  Qed.
End Claims.

Lemma pcs_binding (K : fld) (adicity : nat) (root shift : K) (threads : Z) (lb : nat) (ICom IPf : Type) iverify (Com Pf : Type) mverify
    (coms : list ICom) (domains : list (list (domain K))) (rounds : list (list (claim K))) (alpha : K) (betas : list K) (commits : list Com) mats (final : K) :
  adicity < 62 -> primitive_root root (2 ^ adicity) -> (0 < threads < 2 ^ 62)%Z -> 0 < lb ->
  lb + length commits <= adicity -> length betas = length commits ->
  Forall2 (fun com cs => Forall (well_formed adicity lb) cs /\ @binds_matrices K lb ICom IPf iverify com cs) coms rounds ->
  Forall2 (Forall2 (fun c d => exists offset, new_coset adicity root (m_log c) offset = Some d)) rounds domains ->
  @all_bind K Com Pf mverify commits (lb + length commits) mats ->
  (forall index, index < 2 ^ (lb + length commits) -> exists input_proof openings steps ro,
     check_openings K adicity root shift lb ICom IPf iverify alpha (lb + length commits) coms domains (map (map m_points) rounds) (map (map m_values) rounds) index input_proof = Some ro /\
     zip_steps K Com Pf betas commits openings = Some steps /\
     verify_query K adicity root Com Pf mverify lb index (lb + length commits) steps ro = Some final) ->
  honest_folding adicity root threads (claimed_vectors adicity root shift lb alpha (concat rounds)) final (lb + length commits) (repeat 0%fld (2 ^ (lb + length commits))) betas mats.
Proof.
  intros Had Hroot Ht Hlb HG HL HC HD HB HQ. set (G := lb + length commits) in *.
  assert (HD' : Forall2 (Forall2 (fun c d => d_log d = m_log c /\ d_size d = 2 ^ m_log c)) rounds domains).
  { clear - HD Had Hroot HC. revert domains HD. induction HC as [|com cs coms rounds [HW _] HC IH]; intros domains HD; inversion HD as [|? ds ? dss Hd HD']; subst; constructor; [|apply IH, HD'].
    clear - Hd HW Had Hroot. revert ds Hd. induction HW as [|c cs (W1 & W2 & _) HW IH]; intros ds Hd; inversion Hd as [|? d ? ds' [off E] Hd']; subst; constructor; [|apply IH, Hd'].
    unfold height in W2. assert (Hoff : off <> 0%fld).
    { intros ->. unfold new_coset in E. destruct (create_domain _ _ _) as [d0|]; [|discriminate]. unfold get_coset in E. rewrite feqb_refl in E. discriminate. }
    destruct (new_coset_spec K adicity root ltac:(lia) Hroot (m_log c) off ltac:(lia) Hoff) as (d' & E' & D). rewrite E in E'. injection E' as <-. apply rdom_ok in D; [|lia|exact Hroot|lia]. destruct D as [D _]. split; [apply (do_log _ _ _ _ _ D)|apply (do_size _ _ _ _ _ D)]. }
  assert (HF : Forall (fun c => height lb c <= G) (concat rounds)).
  { destruct (HQ 0) as (inp & op & st & ro & E & _); [pose proof (Nat.pow_nonzero 2 G); lia|].
    apply (proj1 (query_binds K adicity root shift lb alpha Had G ICom IPf iverify 0 rounds coms domains inp ro ltac:(pose proof (Nat.pow_nonzero 2 G); lia) HC HD' E)). }
  apply (fri_binding K adicity root threads Com Pf mverify lb G _ betas commits mats final); try assumption; try lia.
  - apply claimed_decreasing.
  - intros v Hv. unfold claimed_vectors in Hv. apply in_map_iff in Hv. destruct Hv as (l & <- & Hl). apply filter_In in Hl. destruct Hl as [_ Hl]. apply existsb_exists in Hl. destruct Hl as (c & Hc & El).
    apply Nat.eqb_eq in El. exists l. rewrite claimed_length. split; [|reflexivity]. rewrite Forall_forall in HF. specialize (HF c Hc). rewrite <- El. split; [|exact HF].
    apply in_concat in Hc. destruct Hc as (cs & Hcs & Hc). apply In_nth_error in Hcs. destruct Hcs as [i Hi].
    assert (HW : Forall (Forall (well_formed adicity lb)) rounds). { clear - HC. induction HC as [|com cs coms rounds [HW _] HC IH]; constructor; assumption. }
    rewrite Forall_forall in HW. specialize (HW cs (nth_error_In _ _ Hi)). rewrite Forall_forall in HW. destruct (HW c Hc) as (W & _). unfold height. lia.
  - intros index Hi. destruct (HQ index Hi) as (inp & op & st & ro & E & Z & V). exists op, st. split; [exact Z|].
    rewrite <- (proj2 (query_binds K adicity root shift lb alpha Had G ICom IPf iverify index rounds coms domains inp ro Hi HC HD' E)). exact V.
Qed.
