(** Completeness of the two-adic FRI commitment scheme, and what its verifier does not bind. *)
From Coq Require Import ZArith List Bool Lia Arith Sorting.Sorted Ring Field Field_theory.
From Verif Require Import Field BitsModel BitsExtra BitsProof ParallelizeModel ParallelizeProof SemigroupModel SemigroupExtra
  PolySpec PolyProof PolyProof3 FFTModel FFTSpec FFTProof FFTProof2 FFTProof4 FFTProof5 FFTExtra DomainSpec DomainProof CosetModel CosetProof CosetProof2 BatchSpec BatchProof2 BatchExtra
  FriModel FriSpec FriProof FriProof2 FriProof3 PcsModel PcsSpec PcsProof PcsProof2 PcsProof3 PcsProof4 PcsProof5 FriExtra.
Import ListNotations.
Open Scope nat_scope.

Lemma Forall2_combine {A B} (R : A -> B -> Prop) l1 l2 : Forall2 R l1 l2 -> Forall (fun p => R (fst p) (snd p)) (combine l1 l2) /\ map fst (combine l1 l2) = l1 /\ map snd (combine l1 l2) = l2.
Proof. induction 1 as [|a b l1 l2 H HF (I1 & I2 & I3)]; [repeat split; constructor|]. cbn [combine map fst snd]. rewrite I2, I3. repeat split; auto. Qed.

Section Main.
  Variable K : fld.
  Add Field Kpcs8 : (fld_theory K).
  Open Scope fld_scope.
  Variables (adicity : nat) (root shift : K) (threads : Z) (sched : scheduler) (lb : nat).
  Hypothesis Had : (adicity < 62)%nat.
  Hypothesis Hroot : primitive_root root (2 ^ adicity).
  Hypothesis Ht : (0 < threads < 2 ^ 62)%Z.
  Hypothesis Hsched : schedules sched.
  Hypothesis Hshift : shift <> 0.
  Hypothesis Hlb : (0 < lb)%nat.
  Variables (ICom IData IPf : Type).
  Variable icommit : list (list (list K)) -> option (ICom * IData).
  Variable imats : IData -> list (list (list K)).
  Variable iopen : nat -> IData -> option (list (list K) * IPf).
  Variable iverify : ICom -> list (nat * nat) -> nat -> list (list K) -> IPf -> bool.
  Hypothesis Himm : complete_input icommit imats iopen iverify.
  Notation pm := (pm K adicity root shift lb).
  Notation lde := (lde K adicity root shift lb).
  Notation opened := (opened K).
  Notation L p := (c_log p + lb)%nat.
  Notation top l := (list_max (map (fun e => L (fst e)) l)).
  Notation ext e := (pm (c_log (fst e)) (c_columns (fst e))).
  Implicit Types (e : committed K * list K) (l : list (committed K * list K)).

  (** What an honest commitment to the batch [l] gives. *)
  Definition honest l (cd : ICom * IData) : Prop :=
    l <> [] /\ imats (snd cd) = map (fun e => ext e) l /\
    forall i, (i < 2 ^ top l)%nat -> exists pf,
      let rows := map (fun e => nth (Nat.div i (2 ^ (top l - L (fst e)))) (ext e) []) l in
      iopen i (snd cd) = Some (rows, pf) /\ iverify (fst cd) (map (fun e => (0, 2 ^ L (fst e))%nat) l) i rows pf = true.

  Lemma pm_length k cols : length (pm k cols) = (2 ^ (k + lb))%nat.
  Proof using Type. clear. unfold PcsProof2.pm. rewrite map_length, seq_length. reflexivity. Qed.
  Lemma pm_nth k cols i : (i < 2 ^ (k + lb))%nat -> nth i (pm k cols) [] = values_at (xpt K adicity root shift (k + lb) i) cols.
  Proof using Type. clear. intros H. unfold PcsProof2.pm. rewrite (tab_at (fun i => map (fun f => eval f (xpt K adicity root shift (k + lb) i)) cols)) by exact H. reflexivity. Qed.
  Lemma max_rows_top l : l <> [] -> max_rows (map (fun e => ext e) l) = (2 ^ top l)%nat.
  Proof using Type.
    clear. intros Hne. unfold max_rows. rewrite (fold_max (@length (list K))), map_map. rewrite Nat.max_0_l.
    rewrite (map_ext (fun e => length (ext e)) (fun e => 2 ^ L (fst e))%nat) by (intros e; apply pm_length). apply list_max_pow. exact Hne.
  Qed.
  Lemma tallest_top l : l <> [] -> tallest (map (fun e => ext e) l) = (2 ^ top l)%nat.
  Proof using Type.
    clear. intros Hne. unfold tallest. rewrite map_map.
    rewrite (map_ext (fun e => length (ext e)) (fun e => 2 ^ L (fst e))%nat) by (intros e; apply pm_length). apply list_max_pow. exact Hne.
  Qed.
  Lemma pow_div a b : (b <= a)%nat -> Nat.div (2 ^ a) (2 ^ b) = (2 ^ (a - b))%nat.
  Proof using Type. clear. intros H. replace a with (a - b + b)%nat at 1 by lia. rewrite Nat.pow_add_r. apply Nat.div_mul. pose proof (pow2_pos b). lia. Qed.

  Lemma commit_honest l ds : l <> [] -> Forall (fun e => committable adicity lb (fst e)) l -> Forall2 (fun e d => new_coset adicity root (c_log (fst e)) (c_offset (fst e)) = Some d) l ds ->
    exists cd, pcs_commit K adicity root shift threads sched lb ICom IData icommit ds (map (fun e => value_matrix adicity root (fst e)) l) = Some cd /\ honest l cd.
  Proof using Had Hroot Ht Hsched Himm Hlb.
    intros Hne HW HD. unfold pcs_commit.
    assert (E : zip_reads ds (map (fun e => value_matrix adicity root (fst e)) l) = Some (combine ds (map (fun e => value_matrix adicity root (fst e)) l))).
    { apply zip_reads_combine. rewrite map_length. symmetry. eapply Forall2_length. exact HD. }
    rewrite E. clear E.
    assert (E : all_reads (map (fun p => extend K adicity root shift threads sched lb (fst p) (snd p)) (combine ds (map (fun e => value_matrix adicity root (fst e)) l))) = Some (map (fun e => ext e) l)).
    { clear Hne. induction HD as [|e d l ds Hd HD IH]; [reflexivity|]. apply Forall_cons_iff in HW. destruct HW as [H1 H2]. cbn [map combine all_reads fst snd].
      rewrite (extend_spec K adicity root shift threads sched lb Had Hroot Ht Hsched (fst e) d H1 Hd). rewrite (IH H2). reflexivity. }
    rewrite E. clear E. destruct (Himm (map (fun e => ext e) l)) as (c & d & E1 & E2 & E3).
    - destruct l; [congruence|discriminate].
    - apply Forall_forall. intros m Hm. apply in_map_iff in Hm. destruct Hm as (e & <- & He). rewrite Forall_forall in HW. destruct (HW e He) as (W1 & W2 & W3 & W4 & W5 & W6).
      exists (L (fst e)), (length (c_columns (fst e))). split; [exact W3|]. split; [destruct (c_columns (fst e)); [congruence|cbn; lia]|]. split; [apply pm_length|].
      unfold PcsProof2.pm. apply Forall_forall. intros r Hr. apply in_map_iff in Hr. destruct Hr as (i & <- & _). apply map_length.
    - exists (c, d). split; [exact E1|]. split; [exact Hne|]. split; [exact E2|]. intros i Hi. rewrite tallest_top in E3 by exact Hne. destruct (E3 i Hi) as (pf & F1 & F2). exists pf.
      assert (ER : map (fun m => nth (Nat.div i (Nat.div (2 ^ top l) (length m))) m []) (map (fun e => ext e) l) = map (fun e => nth (Nat.div i (2 ^ (top l - L (fst e)))) (ext e) []) l).
      { rewrite map_map. apply map_ext_in. intros e He. rewrite pm_length, pow_div by (apply (list_max_in (fun e => L (fst e))); exact He). reflexivity. }
      cbv zeta in *. rewrite ER in F1, F2. split; [exact F1|]. cbn [fst]. rewrite map_map in F2. rewrite (map_ext (fun e => (0, length (ext e))%nat) (fun e => (0, 2 ^ L (fst e))%nat)) in F2 by (intros e; rewrite pm_length; reflexivity). exact F2.
  Qed.

  (** The prover's input openings are what the verifier needs. *)
  Lemma open_input_honest G rs cds index : (index < 2 ^ G)%nat -> (G < 32)%nat -> Forall2 honest rs cds -> Forall (fun l => (top l <= G)%nat) rs ->
    exists inps, open_input K IData IPf imats iopen G (map snd cds) index = Some inps /\
      Forall2 (fun lc inp => fst inp = map (row_at K adicity root shift lb G index) (fst lc) /\
           iverify (snd lc) (map (fun e => (0, 2 ^ L (fst e))%nat) (fst lc)) (Nat.div index (2 ^ (G - top (fst lc)))) (fst inp) (snd inp) = true) (combine rs (map fst cds)) inps.
  Proof using Type.
    clear Had Hroot Ht Hsched Hshift Hlb Himm sched threads icommit. intros Hi HG. unfold open_input. induction 1 as [|l cd rs cds HH HF IH]; intros HT; [exists []; split; [reflexivity|constructor]|].
    apply Forall_cons_iff in HT. destruct HT as [HT1 HT]. destruct (IH HT) as (inps & E & HI). destruct HH as (Hne & Em & Ho). cbn [map all_reads combine].
    rewrite Em, max_rows_top by exact Hne. rewrite checked_log2_pow2 by lia. rewrite Nat2Z.id. unfold reduced_index at 1. rewrite (proj2 (Nat.ltb_ge _ _)) by exact HT1.
    assert (Hj : (Nat.div index (2 ^ (G - top l)) < 2 ^ top l)%nat).
    { apply Nat.div_lt_upper_bound; [pose proof (pow2_pos (G - top l)); lia|]. rewrite <- Nat.pow_add_r. replace (G - top l + top l)%nat with G by lia. exact Hi. }
    destruct (Ho _ Hj) as (pf & F1 & F2). cbv zeta in F1, F2.
    assert (ER : map (fun e => nth (Nat.div (Nat.div index (2 ^ (G - top l))) (2 ^ (top l - L (fst e)))) (ext e) []) l = map (row_at K adicity root shift lb G index) l).
    { apply map_ext_in. intros e He. pose proof (list_max_in (fun e => L (fst e)) l e He) as HLe. cbv beta in HLe. rewrite Nat.div_div by (match goal with |- (2 ^ ?a)%nat <> 0%nat => pose proof (pow2_pos a); lia end).
      rewrite <- Nat.pow_add_r. replace (G - top l + (top l - L (fst e)))%nat with (G - L (fst e))%nat by lia. apply pm_nth.
      apply Nat.div_lt_upper_bound; [pose proof (pow2_pos (G - L (fst e))); lia|]. rewrite <- Nat.pow_add_r. replace (G - L (fst e) + L (fst e))%nat with G by lia. exact Hi. }
    rewrite ER in F1, F2. rewrite F1. unfold open_input in E. rewrite E. eexists. split; [reflexivity|]. constructor; [|exact HI]. cbn [fst snd]. split; [reflexivity|exact F2].
  Qed.

  Variables (Com Data Pf : Type).
  Variable mcommit : list (list K) -> option (Com * Data).
  Variable mmatrix : Data -> list (list K).
  Variable mopen : nat -> Data -> option (list (list K) * Pf).
  Variable mverify : Com -> nat * nat -> nat -> list (list K) -> Pf -> bool.
  Hypothesis Hmm : complete_mmcs mcommit mmatrix mopen mverify.
  Variables (Ch Wit : Type).
  Variable oc : Ch -> Com -> Ch.
  Variable ov : Ch -> K -> Ch.
  Variable sample : Ch -> K * Ch.
  Variable grind : Ch -> Wit * Ch.
  Variable check_witness : Ch -> Wit -> bool * Ch.
  Variable sample_bits : nat -> Ch -> nat * Ch.
  Variable num_queries : nat.
  Hypothesis Hbits : forall n c, (fst (sample_bits n c) < 2 ^ n)%nat.
  Hypothesis Hcheck : forall c, check_witness c (fst (grind c)) = (true, snd (grind c)).

  Lemma open_honest (rs : list (list (committed K * list K))) cds dss ch : rs <> [] -> Forall2 honest rs cds ->
    Forall (Forall (fun e => committable adicity lb (fst e) /\ Forall (outside adicity root shift lb (fst e)) (snd e))) rs ->
    Forall2 (Forall2 (fun e d => new_coset adicity root (c_log (fst e)) (c_offset (fst e)) = Some d)) rs dss ->
    (Z.of_nat (list_sum (map (fun l => list_sum (map (fun e => length (c_columns (fst e)) * length (snd e))%nat l)) rs)) < 2 ^ 64)%Z ->
    exists proof ch',
      create_opening K adicity root shift threads lb IData IPf imats iopen Com Data Pf mcommit mmatrix mopen Ch Wit oc ov sample grind sample_bits num_queries (map snd cds) (map (map snd) rs) ch =
        Some (map (map opened) rs, proof, ch') /\
      verify_opening K adicity root shift lb ICom IPf iverify Com Pf mverify Ch Wit oc ov sample check_witness sample_bits num_queries (map fst cds) dss (map (map snd) rs) (map (map opened) rs) proof ch = Some (true, ch').
  Proof using Had Hroot Ht Hshift Hlb Hmm Hbits Hcheck.
    intros Hne HH HW HD Hcnt. set (G := list_max (map (fun l => top l) rs)).
    assert (Hrne : forall l, In l rs -> l <> []). { clear - HH. intros l Hl. induction HH as [|l' cd rs cds (H & _) HF IH]; [destruct Hl|]. destruct Hl as [->|Hl]; [exact H|apply IH, Hl]. }
    assert (HG : (lb < G /\ G < 32 /\ G <= adicity)%nat /\ exists l e, In l rs /\ In e l /\ L (fst e) = G).
    { destruct (list_max_attained (fun l => top l) rs Hne) as (l & Hl & EG). fold G in EG. destruct (list_max_attained (fun e => L (fst e)) l (Hrne l Hl)) as (e & He & Ee). cbv beta in EG, Ee.
      rewrite Forall_forall in HW. specialize (HW l Hl). rewrite Forall_forall in HW. destruct (HW e He) as [(W1 & W2 & W3 & _) _]. split; [lia|]. exists l, e. split; [exact Hl|]. split; [exact He|]. lia. }
    destruct HG as [(HG0 & HG1 & HG2) (lG & eG & HlG & HeG & ELG)].
    assert (HtopG : Forall (fun l => (top l <= G)%nat) rs). { apply Forall_forall. intros l Hl. apply (list_max_in (fun l => top l)). exact Hl. }
    assert (HLG : forall l e, In l rs -> In e l -> (L (fst e) <= G)%nat). { intros l e Hl He. rewrite Forall_forall in HtopG. specialize (HtopG l Hl). pose proof (list_max_in (fun e => L (fst e)) l e He). cbv beta in *. lia. }
    unfold create_opening, verify_opening. destruct (sample ch) as [alpha ch1].
    assert (E0 : fold_left (fun a d => Nat.max a (max_rows (imats d))) (map snd cds) 0%nat = (2 ^ G)%nat).
    { rewrite fold_max, Nat.max_0_l, map_map. transitivity (list_max (map (fun l => 2 ^ top l)%nat rs)); [|apply list_max_pow; exact Hne]. f_equal.
      clear - HH. induction HH as [|l cd rs cds (H1 & H2 & _) HF IH]; [reflexivity|]. cbn [map]. rewrite IH, H2, max_rows_top by exact H1. reflexivity. }
    rewrite E0, checked_log2_pow2 by lia. rewrite Nat2Z.id.
    assert (E1 : map imats (map snd cds) = map (map (fun e => ext e)) rs).
    { clear - HH. induction HH as [|l cd rs cds (H1 & H2 & _) HF IH]; [reflexivity|]. cbn [map]. rewrite IH, H2. reflexivity. }
    rewrite E1, zip_reads_combine by (rewrite !map_length; reflexivity).
    assert (E2 : all_reads (map (fun p : list (list (list K)) * list (list K) => zip_reads (fst p) (snd p)) (combine (map (map (fun e => ext e)) rs) (map (map snd) rs))) = Some (map (map lde) rs)).
    { clear. induction rs as [|l rs IH]; [reflexivity|]. cbn [map combine all_reads fst snd]. rewrite zip_reads_combine by (rewrite !map_length; reflexivity). rewrite IH. f_equal. f_equal.
      induction l as [|e l IHl]; [reflexivity|]. cbn [map combine]. rewrite IHl. reflexivity. }
    rewrite E2. clear E1 E2.
    destruct (inverse_denominators_spec K adicity root shift threads Had Hroot Ht (concat (map (map lde) rs))) as (D & ED & HDn).
    { destruct rs as [|l rs']; [congruence|]. cbn [map concat]. specialize (Hrne l (or_introl eq_refl)). destruct l; [congruence|discriminate]. }
    { apply Forall_forall. intros x Hx. apply in_concat in Hx. destruct Hx as (ml & Hml & Hx). apply in_map_iff in Hml. destruct Hml as (l & <- & Hl). apply in_map_iff in Hx. destruct Hx as (e & <- & He).
      rewrite Forall_forall in HW. specialize (HW l Hl). rewrite Forall_forall in HW. destruct (HW e He) as [(W1 & W2 & W3 & _) _]. exists (L (fst e)). unfold PcsProof4.lde. cbn [fst]. rewrite pm_length. split; [reflexivity|]. lia. }
    rewrite ED.
    assert (HOK : Forall (Forall (ok K adicity root shift lb D G)) rs).
    { apply Forall_forall. intros l Hl. apply Forall_forall. intros e He. pose proof HW as HW'. rewrite Forall_forall in HW'. specialize (HW' l Hl). rewrite Forall_forall in HW'. destruct (HW' e He) as [Hc Ho].
      split; [exact Hc|]. split; [apply (HLG l e Hl He)|]. apply Forall_forall. intros z Hz. rewrite Forall_forall in Ho. specialize (Ho z Hz). split; [exact Ho|].
      apply (HDn (ext e) (snd e) z (L (fst e))); [|exact Hz|apply pm_length]. apply in_concat. exists (map lde l). split; [apply in_map, Hl|]. apply in_map_iff. exists e. split; [reflexivity|exact He]. }
    assert (HI0 : Inv K adicity root shift lb G 0 (repeat [] 32, repeat 0%nat 32)).
    { split; [reflexivity|]. split; [reflexivity|]. intros j Hj. cbn [fst snd]. rewrite !nth_repeat. split; [lia|]. left. split; reflexivity. }
    destruct (open_rounds_spec K adicity root shift threads lb alpha Had Hroot Ht Hshift D G rs 0%nat _ HOK HI0 Hcnt) as (st & E3 & HI & HA & _ & HC).
    rewrite E3. cbn [plus] in HI. set (N := list_sum _) in HI.
    assert (HneG : nth G (fst st) [] <> []) by (rewrite <- ELG; apply (HA lG eG HlG HeG)).
    assert (H11 : (1 + 1 : K) <> 0).
    { assert (HP : primitive_root (generator adicity root 1) (2 ^ 1)). { apply primitive_sub. replace (adicity - 1 + 1)%nat with adicity by lia. exact Hroot. }
      pose proof (fnat_pow2_prim K _ _ HP) as Hn. intros E. apply Hn. transitivity (1 + 1 : K); [cbn [Nat.pow Nat.mul plus fnat]; ring|exact E]. }
    pose proof (fri_inputs_first K adicity root shift lb G N st HI HG1 HneG) as HF1.
    pose proof (fri_inputs_decreasing K adicity root shift lb G N st HI) as HF2.
    assert (HF3 : forall v, In v (fri_inputs K st) -> exists j, low_degree adicity root lb j v).
    { intros v Hv. destruct (fri_inputs_in K adicity root shift lb G N st v HI Hv) as (j & _ & _ & Hlo & _). exists j. apply (lowp_low_degree K adicity root shift). exact Hlo. }
    assert (HF4 : Forall (fun v => (2 ^ lb < length v)%nat) (fri_inputs K st)).
    { apply Forall_forall. intros v Hv. destruct (fri_inputs_in K adicity root shift lb G N st v HI Hv) as (j & _ & _ & (Hj & Hjl & _) & _). rewrite Hj. apply Nat.pow_lt_mono_r; lia. }
    set (op := open_input K IData IPf imats iopen G (map snd cds)).
    set (opv := check_openings K adicity root shift lb ICom IPf iverify alpha G (map fst cds) dss (map (map snd) rs) (map (map opened) rs)).
    assert (HV : forall index, (index < 2 ^ G)%nat -> opv index (op index) = Some (openings_at G index (fri_inputs K st))).
    { intros index Hi. unfold op, opv. destruct (open_input_honest G rs cds index Hi HG1 HH HtopG) as (inps & -> & HV). unfold check_openings.
      assert (HDD : Forall2 (fun l ds => l <> [] /\ Forall2 (fun e d => d_log d = c_log (fst e) /\ d_size d = (2 ^ c_log (fst e))%nat) l ds) rs dss).
      { clear - HD Hrne HW Had Hroot. revert HW. induction HD as [|l ds rs dss Hd HD IH]; intros HW; [constructor|]. apply Forall_cons_iff in HW. destruct HW as [HW1 HW2]. constructor.
        - split; [apply Hrne; left; reflexivity|]. clear - Hd HW1 Had Hroot. revert HW1. induction Hd as [|e d l ds Hd' Hd IH]; intros HW; [constructor|]. apply Forall_cons_iff in HW. destruct HW as [[(W1 & W2 & W3 & W4 & _) _] HW]. constructor; [|auto].
          destruct (new_coset_spec K adicity root Had Hroot (c_log (fst e)) (c_offset (fst e)) ltac:(lia) W4) as (d' & Ed' & HR). rewrite Hd' in Ed'. injection Ed' as <-.
          destruct (rdom_ok K adicity root (c_log (fst e)) (c_offset (fst e)) d Had Hroot ltac:(lia) HR) as [HDm _]. split; [apply (do_log _ _ _ _ _ HDm)|apply (do_size _ _ _ _ _ HDm)].
        - apply IH; [intros l' Hl'; apply Hrne; right; exact Hl'|exact HW2]. }
      specialize (HC ICom IPf iverify index dss (map fst cds) inps Hi HDD HV).
      assert (HLc : length (map fst cds) = length rs) by (rewrite map_length; symmetry; eapply Forall2_length; exact HH). specialize (HC HLc).
      change (abs K alpha G index (repeat [] 32, repeat 0%nat 32)) with (@nil (nat * (K * K))) in HC. rewrite HC.
      rewrite (fri_inputs_openings K adicity root shift lb alpha G N st index HI). reflexivity. }
    destruct (prove_succeeds K adicity root threads ltac:(lia) Hroot H11 ltac:(lia) Com Data Pf mcommit mmatrix mopen mverify Ch Wit oc ov sample grind check_witness sample_bits (in_proof K IPf) lb num_queries Hlb Hmm
      (fri_inputs K st) G HF1 HF2 HF3 HG2 op Hbits ch1) as (proof & ch' & EP & EC & _).
    destruct (fri_complete K adicity root threads ltac:(lia) Hroot H11 ltac:(lia) Com Data Pf mcommit mmatrix mopen mverify Ch Wit oc ov sample grind check_witness sample_bits (in_proof K IPf) lb num_queries Hlb Hmm
      (fri_inputs K st) G HF1 HF2 HF3 HG2 op Hbits HF4 Hcheck opv HV ch1) as (proof2 & ch2 & EP2 & EV).
    rewrite EP in EP2. injection EP2 as <- <-. rewrite EP. exists proof, ch'. split.
    - destruct HF1 as (first & rest & EF & Hfl). pose proof (prove_indices K adicity root threads Com Data Pf mcommit mmatrix mopen Ch Wit oc ov sample grind sample_bits (in_proof K IPf) lb num_queries Hbits _ first rest G op ch1 proof ch' EF Hfl ltac:(lia) EP) as HQ.
      assert (EQ : forallb (fun q : in_proof K IPf * list (K * Pf) => match fst q with Some _ => true | None => false end) (queries K Com Pf Wit (in_proof K IPf) proof) = true).
      { apply forallb_forall. intros q Hq. rewrite Forall_forall in HQ. destruct (HQ q Hq) as (i & Hi & Eq). rewrite Eq. destruct (open_input_honest G rs cds i Hi HG1 HH HtopG) as (inps & Eo & _). unfold op. rewrite Eo. reflexivity. }
      match goal with |- (if ?b then _ else _) = _ => replace b with true by (symmetry; exact EQ) end. reflexivity.
    - rewrite EC. replace (G - lb + lb)%nat with G by lia. exact EV.
  Qed.
End Main.

Section Complete.
  Variable K : fld.
  Open Scope fld_scope.
  Lemma pcs_complete (adicity : nat) (root shift : K) (threads : Z) (sched : scheduler) (lb : nat) (ICom IData IPf : Type) icommit imats iopen iverify
      (Com Data Pf : Type) mcommit mmatrix mopen mverify (Ch Wit : Type) oc ov sample grind check_witness sample_bits (num_queries : nat)
      (batches : list (list (committed K))) (points : list (list (list K))) (domains : list (list (domain K))) (ch : Ch) :
    (adicity < 62)%nat -> primitive_root root (2 ^ adicity) -> (0 < threads < 2 ^ 62)%Z -> schedules sched -> shift <> 0 -> (0 < lb)%nat ->
    @complete_input K ICom IData IPf icommit imats iopen iverify -> @complete_mmcs K Com Data Pf mcommit mmatrix mopen mverify ->
    (forall n c, (fst (sample_bits n c) < 2 ^ n)%nat) -> (forall c, check_witness c (fst (grind c)) = (true, snd (grind c))) ->
    batches <> [] -> Forall (fun b => b <> [] /\ Forall (committable adicity lb) b) batches ->
    Forall2 (Forall2 (fun p zs => Forall (outside adicity root shift lb p) zs)) batches points ->
    Forall2 (Forall2 (fun p d => new_coset adicity root (c_log p) (c_offset p) = Some d)) batches domains ->
    (Z.of_nat (count_values batches points) < 2 ^ 64)%Z ->
    exists commitments proof ch',
      Forall2 (fun bd cd => pcs_commit K adicity root shift threads sched lb ICom IData icommit (snd bd) (map (value_matrix adicity root) (fst bd)) = Some cd) (combine batches domains) commitments /\
      let opened := map (fun bp => map (fun e => map (fun z => values_at z (c_columns (fst e))) (snd e)) (combine (fst bp) (snd bp))) (combine batches points) in
      create_opening K adicity root shift threads lb IData IPf imats iopen Com Data Pf mcommit mmatrix mopen Ch Wit oc ov sample grind sample_bits num_queries (map snd commitments) points ch =
        Some (opened, proof, ch') /\
      verify_opening K adicity root shift lb ICom IPf iverify Com Pf mverify Ch Wit oc ov sample check_witness sample_bits num_queries (map fst commitments) domains points opened proof ch = Some (true, ch').
  Proof.
    intros Had Hroot Ht Hsched Hshift Hlb Himm Hmm Hbits Hcheck Hne HB HP HD Hcnt.
    set (rs := map (fun bp : list (committed K) * list (list K) => combine (fst bp) (snd bp)) (combine batches points)).
    assert (HR : map (map fst) rs = batches /\ map (map snd) rs = points /\ Forall (Forall (fun e : committed K * list K => Forall (outside adicity root shift lb (fst e)) (snd e))) rs).
    { unfold rs. clear - HP. induction HP as [|b ps batches points H HP (I1 & I2 & I3)]; [repeat split; constructor|]. cbn [combine map fst snd]. destruct (Forall2_combine _ _ _ H) as (J1 & J2 & J3).
      rewrite J2, J3, I1, I2. repeat split. constructor; [exact J1|exact I3]. }
    destruct HR as (R1 & R2 & R3).
    assert (HW : Forall (Forall (fun e : committed K * list K => committable adicity lb (fst e) /\ Forall (outside adicity root shift lb (fst e)) (snd e))) rs).
    { apply Forall_forall. intros l Hl. apply Forall_forall. intros e He. rewrite Forall_forall in R3, HB. specialize (R3 l Hl). rewrite Forall_forall in R3. split; [|apply R3, He].
      assert (Hb : In (map fst l) batches) by (rewrite <- R1; apply in_map, Hl). destruct (HB _ Hb) as [_ HB']. rewrite Forall_forall in HB'. apply HB'. apply in_map, He. }
    assert (Hrne : forall l, In l rs -> l <> []).
    { intros l Hl ->. rewrite Forall_forall in HB. assert (Hb : In (map fst (@nil (committed K * list K))) batches) by (rewrite <- R1; apply in_map, Hl). apply (proj1 (HB _ Hb)). reflexivity. }
    assert (HDr : Forall2 (Forall2 (fun e d => new_coset adicity root (c_log (fst e)) (c_offset (fst e)) = Some d)) rs domains).
    { rewrite <- R1 in HD. clear - HD. revert HD. generalize domains. induction rs as [|l rs IH]; intros ds HD; inversion HD as [|? d ? ds' Hd HD']; subst; constructor; [|apply IH; exact HD'].
      clear - Hd. revert Hd. generalize d. induction l as [|e l IH]; intros d' Hd; inversion Hd; subst; constructor; auto. }
    assert (HC : exists cds, Forall2 (honest K adicity root shift lb ICom IData IPf imats iopen iverify) rs cds /\
      Forall2 (fun bd cd => pcs_commit K adicity root shift threads sched lb ICom IData icommit (snd bd) (map (value_matrix adicity root) (fst bd)) = Some cd) (combine (map (map fst) rs) domains) cds).
    { clear - Had Hroot Ht Hsched Himm Hlb Hrne HW HDr. revert HW Hrne. induction HDr as [|l ds rs dss Hd HDr IH]; intros HW Hrne; [exists []; split; constructor|].
      apply Forall_cons_iff in HW. destruct HW as [HW1 HW]. destruct (IH HW (fun l' H => Hrne l' (or_intror H))) as (cds & C1 & C2).
      destruct (commit_honest K adicity root shift threads sched lb Had Hroot Ht Hsched Hlb ICom IData IPf icommit imats iopen iverify Himm l ds (Hrne l (or_introl eq_refl))) as (cd & E1 & E2); [|exact Hd|].
      - eapply Forall_impl; [|exact HW1]. cbv beta. intros e H. apply H.
      - exists (cd :: cds). split; [constructor; assumption|]. cbn [map combine]. constructor; [|exact C2]. cbn [fst snd]. rewrite map_map. exact E1. }
    destruct HC as (cds & C1 & C2). rewrite R1 in C2.
    assert (Hrs : rs <> []). { intros E. rewrite E in R1. cbn in R1. congruence. }
    destruct (open_honest K adicity root shift threads lb Had Hroot Ht Hshift Hlb ICom IData IPf imats iopen iverify Com Data Pf mcommit mmatrix mopen mverify Hmm Ch Wit oc ov sample grind check_witness sample_bits num_queries
      Hbits Hcheck rs cds domains ch Hrs C1 HW HDr) as (proof & ch' & E1 & E2).
    { unfold count_values in Hcnt. unfold rs. rewrite map_map. exact Hcnt. }
    exists cds, proof, ch'. split; [exact C2|]. cbv zeta. rewrite R2 in E1, E2.
    assert (EO : map (map (PcsProof4.opened K)) rs = map (fun bp => map (fun e => map (fun z => values_at z (c_columns (fst e))) (snd e)) (combine (fst bp) (snd bp))) (combine batches points)).
    { unfold rs. rewrite map_map. reflexivity. }
    rewrite EO in E1, E2. split; assumption.
  Qed.
End Complete.

Section Unbound.
  Variable K : fld.
  Add Field Kpcs9 : (fld_theory K).
  Open Scope fld_scope.
  Variables (adicity : nat) (root shift : K) (lb : nat) (ICom IPf : Type).
  Variable iverify : ICom -> list (nat * nat) -> nat -> list (list K) -> IPf -> bool.

  Lemma add_points_same alpha x vi ys ys' C D zs : length ys' = length ys -> eval ys' alpha = eval ys alpha -> forall ro,
    add_points K alpha x vi zs (C ++ ys' :: D) ro = add_points K alpha x vi zs (C ++ ys :: D) ro.
  Proof using Type.
    intros HL HE. revert zs. induction C as [|c C IH]; intros [|z zs] [v pw]; try reflexivity; cbn [app add_points].
    - rewrite HL. destruct (feqb (x - z) 0); [reflexivity|]. destruct (Nat.eqb_spec (length ys) (length vi)) as [E|E]; [|reflexivity]. f_equal.
      rewrite !add_columns_eval by congruence. rewrite HE. reflexivity.
    - destruct (feqb (x - z) 0); [reflexivity|]. destruct (length c =? length vi)%nat; [|reflexivity]. apply IH.
  Qed.
  Lemma update_entry_ext log f g m : (forall e, f e = g e) -> update_entry K log f m = update_entry K log g m.
  Proof using Type. clear. intros H. induction m as [|[l e] m IH]; cbn [update_entry]; rewrite ?H, ?IH; reflexivity. Qed.
  Lemma check_matrices_same alpha G index vs vs' E B : (forall x vi zs ro, add_points K alpha x vi zs vs' ro = add_points K alpha x vi zs vs ro) -> forall m ds zs vi,
    check_matrices K adicity root shift lb alpha G index m (B ++ vs' :: E) ds zs vi = check_matrices K adicity root shift lb alpha G index m (B ++ vs :: E) ds zs vi.
  Proof using Type.
    clear. intros H. induction B as [|b B IH]; intros m ds zs vi; cbn [app check_matrices]; destruct ds as [|d ds], zs as [|z zs], vi as [|w vi]; try reflexivity.
    - replace (check_matrix K adicity root shift lb alpha G index m d z vs' w) with (check_matrix K adicity root shift lb alpha G index m d z vs w); [reflexivity|].
      unfold check_matrix. destruct (reduced_index _ _ _); [|reflexivity]. destruct (reverse_bits_len _ _); [|reflexivity]. destruct (get_root_of_unity _ _ _); [|reflexivity].
      apply update_entry_ext. intros e. symmetry. apply H.
    - destruct (check_matrix _ _ _ _ _ _ _ _ _ _ _ _ _); [|reflexivity]. apply IH.
  Qed.
  Lemma zip_reads_same {A B} (a : list A) (x y : A) r : forall b : list B, option_map (map snd) (zip_reads (a ++ x :: r) b) = option_map (map snd) (zip_reads (a ++ y :: r) b).
  Proof using Type.
    clear. induction a as [|h a IH]; intros [|z b]; try reflexivity; cbn [app zip_reads].
    - destruct (zip_reads r b); reflexivity.
    - specialize (IH b). destruct (zip_reads (a ++ x :: r) b), (zip_reads (a ++ y :: r) b); cbn in *; congruence.
  Qed.
  Lemma check_round_same alpha G index vs vs' E B : (forall x vi zs ro, add_points K alpha x vi zs vs' ro = add_points K alpha x vi zs vs ro) -> forall m com ds zs inp,
    check_round K adicity root shift lb ICom IPf iverify alpha G index m com ds zs (B ++ vs' :: E) inp = check_round K adicity root shift lb ICom IPf iverify alpha G index m com ds zs (B ++ vs :: E) inp.
  Proof using Type.
    intros H m com ds zs inp. unfold check_round. pose proof (zip_reads_same B vs' vs E ds) as HZ.
    destruct (zip_reads (B ++ vs' :: E) ds) as [l1|], (zip_reads (B ++ vs :: E) ds) as [l2|]; cbn in HZ; try discriminate; [|reflexivity]. injection HZ as HZ.
    assert (ED : map (fun p : list (list K) * domain K => (0, d_size (snd p) * 2 ^ lb)%nat) l1 = map (fun p : list (list K) * domain K => (0, d_size (snd p) * 2 ^ lb)%nat) l2).
    { rewrite <- (map_map snd (fun d : domain K => (0, d_size d * 2 ^ lb)%nat) l1), HZ, map_map. reflexivity. }
    rewrite ED. destruct (checked_log2 _ _); [|reflexivity]. destruct (reduced_index _ _ _); [|reflexivity]. rewrite (check_matrices_same _ _ _ vs vs') by exact H. reflexivity.
  Qed.
  Lemma check_rounds_same alpha G index vs vs' E B A F : (forall x vi zs ro, add_points K alpha x vi zs vs' ro = add_points K alpha x vi zs vs ro) -> forall m coms dss zss inps,
    check_rounds K adicity root shift lb ICom IPf iverify alpha G index m coms dss zss (A ++ (B ++ vs' :: E) :: F) inps = check_rounds K adicity root shift lb ICom IPf iverify alpha G index m coms dss zss (A ++ (B ++ vs :: E) :: F) inps.
  Proof using Type.
    intros H. induction A as [|a A IH]; intros m [|com coms] dss zss inps; try reflexivity; cbn [app check_rounds]; destruct dss as [|ds dss], zss as [|zs zss], inps as [|inp inps]; try reflexivity.
    - rewrite (check_round_same _ _ _ vs vs') by exact H. reflexivity.
    - destruct (check_round _ _ _ _ _ _ _ _ _ _ _ _ _ _ _ _ _); [|reflexivity]. apply IH.
  Qed.

  Variables (Com Pf : Type).
  Variable mverify : Com -> nat * nat -> nat -> list (list K) -> Pf -> bool.
  Variables (Ch Wit : Type).
  Variable oc : Ch -> Com -> Ch.
  Variable ov : Ch -> K -> Ch.
  Variable sample : Ch -> K * Ch.
  Variable check_witness : Ch -> Wit -> bool * Ch.
  Variable sample_bits : nat -> Ch -> nat * Ch.
  Variable num_queries : nat.
  Lemma verify_ext InProof proof ch (f g : nat -> InProof -> option (list (nat * K))) : (forall i p, f i p = g i p) ->
    verify K adicity root Com Pf mverify Ch Wit oc ov sample check_witness sample_bits InProof lb num_queries proof ch f =
    verify K adicity root Com Pf mverify Ch Wit oc ov sample check_witness sample_bits InProof lb num_queries proof ch g.
  Proof using Type.
    intros H. unfold verify. destruct (sample_betas _ _ _ _ _ _ _) as [betas ch1]. destruct (negb _); [reflexivity|]. destruct (check_witness _ _) as [[] ch3]; [|reflexivity].
    generalize (length (commits K Com Pf Wit InProof proof) + lb)%nat. intros lm. revert ch3. induction (queries K Com Pf Wit InProof proof) as [|[inp op] qs IH]; intros ch3; [reflexivity|].
    cbn [verify_queries]. destruct (sample_bits lm ch3) as [index ch4]. rewrite H. destruct (g index inp); [|reflexivity]. destruct (zip_steps _ _ _ _ _ _); [|reflexivity].
    destruct (verify_query _ _ _ _ _ _ _ _ _ _ _); [|reflexivity]. destruct (feqb _ _); [apply IH|reflexivity].
  Qed.
  Lemma opening_unbound coms dss zss A B C D E F a y y2 b t proof ch : fst (sample ch) <> 0 ->
    verify_opening K adicity root shift lb ICom IPf iverify Com Pf mverify Ch Wit oc ov sample check_witness sample_bits num_queries coms dss zss
      (A ++ (B ++ (C ++ (a ++ t :: (y2 - (t - y) / fst (sample ch)) :: b) :: D) :: E) :: F) proof ch =
    verify_opening K adicity root shift lb ICom IPf iverify Com Pf mverify Ch Wit oc ov sample check_witness sample_bits num_queries coms dss zss
      (A ++ (B ++ (C ++ (a ++ y :: y2 :: b) :: D) :: E) :: F) proof ch.
  Proof using Type.
    unfold verify_opening. destruct (sample ch) as [alpha ch1]. cbn [fst]. intros Ha. apply verify_ext. intros i p. unfold check_openings. destruct p as [inps|]; [|reflexivity].
    rewrite (check_rounds_same _ _ _ (C ++ (a ++ y :: y2 :: b) :: D) (C ++ (a ++ t :: (y2 - (t - y) / alpha) :: b) :: D)); [reflexivity|].
    intros x vi zs ro. apply add_points_same; [rewrite !app_length; reflexivity|].
    induction a as [|c a IH]; cbn [app]; rewrite !eval_cons; [field; exact Ha|]. rewrite IH. reflexivity.
  Qed.
End Unbound.

(** Commit to a batch of matrices by the matrices themselves. *)
Section Toy.
  Variable K : fld.
  Definition toy_input_commit (ms : list (list (list K))) : option (list (list (list K)) * list (list (list K))) := Some (ms, ms).
  Definition toy_input_matrices (d : list (list (list K))) := d.
  Definition rows_of (i : nat) (ms : list (list (list K))) : list (list K) := map (fun m => nth (Nat.div i (Nat.div (tallest ms) (length m))) m []) ms.
  Definition toy_input_open (i : nat) (d : list (list (list K))) : option (list (list K) * unit) := Some (rows_of i d, tt).
  Fixpoint rows_eqb (a b : list (list K)) : bool :=
    match a, b with [], [] => true | x :: a', y :: b' => row_eqb K x y && rows_eqb a' b' | _, _ => false end.
  Definition toy_input_verify (c : list (list (list K))) (dims : list (nat * nat)) (i : nat) (rows : list (list K)) (pf : unit) : bool := rows_eqb rows (rows_of i c).
  Lemma toy_input_complete : complete_input toy_input_commit toy_input_matrices toy_input_open toy_input_verify.
  Proof.
    intros ms _ _. exists ms, ms. split; [reflexivity|]. split; [reflexivity|]. intros i _. exists tt. split; [reflexivity|].
    unfold toy_input_verify. fold (rows_of i ms). induction (rows_of i ms) as [|r l IH]; [reflexivity|]. cbn [rows_eqb]. rewrite IH, andb_true_r. apply row_eqb_spec. reflexivity.
  Qed.
End Toy.
