(** Committing, opening and verifying. *)
From Coq Require Import ZArith List Bool Lia Arith Sorting.Sorted Ring Field Field_theory.
From Verif Require Import Field BitsModel BitsExtra BitsProof ParallelizeModel ParallelizeProof SemigroupModel SemigroupExtra
  PolySpec PolyProof PolyProof3 FFTModel FFTSpec FFTProof FFTProof2 FFTProof4 FFTProof5 FFTExtra DomainSpec DomainProof CosetModel CosetProof CosetProof2 BatchSpec BatchProof2 BatchExtra
  FriModel FriSpec FriProof FriProof2 FriProof3 PcsModel PcsSpec PcsProof PcsProof2 PcsProof3 PcsProof4.
Import ListNotations.
Open Scope nat_scope.

Lemma map_nth_seq {A B} (F : A -> B) (l : list A) d : map (fun c => F (nth c l d)) (seq 0 (length l)) = map F l.
Proof.
  apply nth_ext with (d := F d) (d' := F d); rewrite !map_length, ?seq_length; [reflexivity|]. intros i Hi. rewrite map_nth.
  rewrite (tab_at (fun c => F (nth c l d))) by exact Hi. reflexivity.
Qed.

Section Commit.
  Variable K : fld.
  Add Field Kpcs6 : (fld_theory K).
  Open Scope fld_scope.
  Variables (adicity : nat) (root shift : K) (threads : Z) (sched : scheduler) (lb : nat).
  Hypothesis Had : (adicity < 62)%nat.
  Hypothesis Hroot : primitive_root root (2 ^ adicity).
  Hypothesis Ht : (0 < threads < 2 ^ 62)%Z.
  Hypothesis Hsched : schedules sched.
  Notation gen k := (generator adicity root k).
  Notation pm := (pm K adicity root shift lb).

  Lemma scaled_columns (s : K) cols : exists cols', length cols' = length cols /\ forall c, length (nth c cols' []) = length (nth c cols []) /\ forall y, eval (nth c cols' []) y = eval (nth c cols []) (s * y).
  Proof using Type.
    clear. induction cols as [|f cols (cols' & L & E)].
    - exists []. split; [reflexivity|]. intros [|c]; split; try reflexivity; intros y; cbn [nth]; rewrite !eval_nil; reflexivity.
    - destruct (scaled_poly K s f) as (f' & Lf & Ef). exists (f' :: cols'). split; [cbn; congruence|]. intros [|c]; cbn [nth]; [split; assumption|apply E].
  Qed.

  Lemma extend_spec p d : committable adicity lb p -> new_coset adicity root (c_log p) (c_offset p) = Some d ->
    extend K adicity root shift threads sched lb d (value_matrix adicity root p) = Some (pm (c_log p) (c_columns p)).
  Proof.
    intros (W1 & W2 & W3 & W4 & W5 & W6) Ed. destruct (new_coset_spec K adicity root Had Hroot (c_log p) (c_offset p) ltac:(lia) W4) as (d' & Ed' & HR). rewrite Ed in Ed'. injection Ed' as <-.
    destruct (rdom_ok K adicity root (c_log p) (c_offset p) d Had Hroot ltac:(lia) HR) as [HD HP].
    set (k := c_log p) in *. set (h := c_offset p) in *. set (cols := c_columns p) in *.
    assert (Hml : length (value_matrix adicity root p) = (2 ^ k)%nat) by (unfold value_matrix, coset_points; rewrite !map_length, seq_length; reflexivity).
    assert (Hhd : length (hd [] (value_matrix adicity root p)) = length cols).
    { unfold value_matrix, coset_points. fold k h cols. pose proof (pow2_pos k). destruct (2 ^ k)%nat; [lia|]. cbn [seq map hd]. unfold values_at. apply map_length. }
    unfold extend. rewrite Hml, (do_size _ _ _ _ _ HD), Nat.eqb_refl.
    destruct (fresh_item K adicity root k h d true threads sched true Had Hroot ltac:(lia) HR Ht Hsched) as (it & -> & Hit). rewrite Hhd.
    destruct (scaled_columns h cols) as (cols' & L' & E').
    rewrite (lde_correct K adicity root k lb h d threads sched it true (length cols) (value_matrix adicity root p) (shift * d_off_inv d) (fun c => nth c cols' []) (2 ^ k * 2 ^ lb) false Had Hroot W1 W2 HR Ht Hsched Hit).
    - f_equal. unfold matrix, PcsProof2.pm. apply map_ext_in. intros i _. rewrite brev_bits. rewrite <- (map_nth_seq (fun f => eval f (xpt K adicity root shift (k + lb) i)) cols []).
      apply map_ext_in. intros c _. rewrite (proj2 (E' c)). f_equal. unfold xpt. rewrite (do_oinv _ _ _ _ _ HD). field. exact W4.
    - split; [exact Hml|]. unfold value_matrix. apply Forall_forall. intros r Hr. apply in_map_iff in Hr. destruct Hr as (x & <- & _). unfold values_at. apply map_length.
    - intros c Hc. split.
      + rewrite (proj1 (E' c)). rewrite Forall_forall in W6. apply W6. apply nth_In. exact Hc.
      + intros i Hi. rewrite (proj2 (E' c)). unfold entry, value_matrix, coset_points. fold k h cols. rewrite map_map.
        rewrite (tab_at (fun i => values_at (h * gen k ^ i) cols)) by exact Hi. unfold values_at.
        rewrite (nth_indep _ 0 (eval [] (h * gen k ^ i))) by (rewrite map_length; exact Hc). rewrite (map_nth (fun f => eval f (h * gen k ^ i))). reflexivity.
    - right. rewrite Nat.pow_add_r. reflexivity.
  Qed.
End Commit.

Section Inputs.
  Variable K : fld.
  Add Field Kpcs7 : (fld_theory K).
  Open Scope fld_scope.
  Variables (adicity : nat) (root shift : K) (lb : nat) (alpha : K) (G : nat).
  Notation lowp := (lowp K adicity root shift lb).
  Notation Inv := (Inv K adicity root shift lb G).
  Notation abs := (abs K alpha G).
  Implicit Types (st : arrays K).

  Definition one_vec st (l : nat) : list (list K) := match nth l (fst st) [] with [] => [] | v => [v] end.
  Lemma rev_filter_flat (vs : list (list K)) n : length vs = n -> rev (filter (fun v => match v with [] => false | _ => true end) vs) = flat_map (fun l => match nth l vs [] with [] => [] | v => [v] end) (rev (seq 0 n)).
  Proof.
    revert vs. induction n as [|n IH]; intros vs Hn; [destruct vs; [reflexivity|discriminate]|].
    assert (Hne : vs <> []) by (intros ->; discriminate). destruct (exists_last Hne) as (vs' & v & ->). rewrite app_length in Hn. cbn in Hn. assert (Hn' : length vs' = n) by lia.
    rewrite filter_app, rev_app_distr, seq_S, rev_app_distr. cbn [rev app plus flat_map]. rewrite app_nth2, Hn', Nat.sub_diag by lia. cbn [nth filter].
    rewrite IH by exact Hn'. assert (E : flat_map (fun l => match nth l (vs' ++ [v]) [] with [] => [] | v0 => [v0] end) (rev (seq 0 n)) = flat_map (fun l => match nth l vs' [] with [] => [] | v0 => [v0] end) (rev (seq 0 n))).
    { rewrite !flat_map_concat_map. f_equal. apply map_ext_in. intros l Hl. apply in_rev, in_seq in Hl. rewrite app_nth1 by lia. reflexivity. }
    rewrite E. destruct v; reflexivity.
  Qed.
  Lemma fri_inputs_flat N st : Inv N st -> fri_inputs K st = flat_map (one_vec st) (rev (seq 0 32)).
  Proof. intros (H & _). unfold fri_inputs. apply rev_filter_flat. exact H. Qed.

  Lemma fri_inputs_in N st v : Inv N st -> In v (fri_inputs K st) -> exists l, (l < 32)%nat /\ v = nth l (fst st) [] /\ lowp l v /\ (l <= G)%nat.
  Proof.
    intros HI Hv. rewrite (fri_inputs_flat N st HI) in Hv. apply in_flat_map in Hv. destruct Hv as (l & Hl & Hv). apply in_rev, in_seq in Hl. exists l. destruct HI as (_ & _ & HI). destruct (HI l ltac:(lia)) as [_ HC].
    unfold one_vec in Hv. destruct HC as [[E _]|[HC HG]]; [rewrite E in Hv; destruct Hv|]. destruct (nth l (fst st) []) eqn:En; [destruct Hv|]. destruct Hv as [<-|[]]. split; [lia|]. split; [reflexivity|]. split; assumption.
  Qed.
  Lemma fri_inputs_decreasing N st : Inv N st -> decreasing (fri_inputs K st).
  Proof.
    intros HI. rewrite (fri_inputs_flat N st HI). destruct HI as (_ & _ & HI). unfold decreasing.
    assert (HL : forall l, In l (rev (seq 0 32)) -> (l < 32)%nat) by (intros l Hl; apply in_rev, in_seq in Hl; lia).
    pose proof (desc_sorted 32) as HS. induction HS as [|l ls HS IH HF]; [constructor|]. cbn [flat_map].
    specialize (IH (fun j Hj => HL j (or_intror Hj))). unfold one_vec at 1. destruct (nth l (fst st) []) as [|a v] eqn:En; [exact IH|]. cbn [app]. constructor; [exact IH|].
    apply Forall_forall. intros w Hw. apply in_flat_map in Hw. destruct Hw as (j & Hj & Hw). rewrite Forall_forall in HF. specialize (HF j Hj).
    destruct (HI l (HL l (or_introl eq_refl))) as [_ [[E _]|[(E & _) _]]]; [congruence|]. destruct (HI j (HL j (or_intror Hj))) as [_ [[Ej _]|[(Ej & _) _]]]; unfold one_vec in Hw.
    - rewrite Ej in Hw. destruct Hw.
    - destruct (nth j (fst st) []) eqn:En'; [destruct Hw|]. destruct Hw as [<-|[]]. rewrite En in E. rewrite E, Ej. apply Nat.pow_lt_mono_r; lia.
  Qed.
  Lemma fri_inputs_openings N st index : Inv N st -> openings_at G index (fri_inputs K st) = map (fun e => (fst e, fst (snd e))) (abs index st).
  Proof.
    intros HI. rewrite (fri_inputs_flat N st HI). destruct HI as (_ & _ & HI). unfold openings_at, PcsProof3.abs.
    assert (HL : forall l, In l (rev (seq 0 32)) -> (l < 32)%nat) by (intros l Hl; apply in_rev, in_seq in Hl; lia). revert HL. generalize (rev (seq 0 32)). intros ls HL.
    induction ls as [|l ls IH]; [reflexivity|]. cbn [flat_map]. rewrite !map_app. rewrite IH by (intros j Hj; apply HL; right; exact Hj). f_equal.
    unfold one_vec, entry_of. destruct (HI l (HL l (or_introl eq_refl))) as [_ [[E _]|[(E & _) _]]]; [rewrite E; reflexivity|].
    destruct (nth l (fst st) []) eqn:En; [reflexivity|]. cbn [map fst snd]. rewrite E, Nat.log2_pow2 by lia. reflexivity.
  Qed.
  Lemma fri_inputs_first N st : Inv N st -> (G < 32)%nat -> nth G (fst st) [] <> [] -> exists first rest, fri_inputs K st = first :: rest /\ length first = (2 ^ G)%nat.
  Proof.
    intros HI HG Hne. assert (Hin : In (nth G (fst st) []) (fri_inputs K st)).
    { rewrite (fri_inputs_flat N st HI). apply in_flat_map. exists G. split; [apply -> in_rev; apply in_seq; lia|]. unfold one_vec. destruct (nth G (fst st) []); [congruence|left; reflexivity]. }
    assert (HlG : length (nth G (fst st) []) = (2 ^ G)%nat). { destruct HI as (_ & _ & HI). destruct (HI G HG) as [_ [[E _]|[(E & _) _]]]; [congruence|exact E]. }
    pose proof (fri_inputs_decreasing N st HI) as HD. pose proof (fun v => fri_inputs_in N st v HI) as HB. destruct (fri_inputs K st) as [|first rest]; [destruct Hin|]. exists first, rest. split; [reflexivity|].
    destruct Hin as [->|Hin]; [exact HlG|]. apply StronglySorted_inv in HD. destruct HD as [_ HF]. rewrite Forall_forall in HF. specialize (HF _ Hin). rewrite HlG in HF.
    destruct (HB first (or_introl eq_refl)) as (l & _ & _ & (E & _) & HlG'). rewrite E in *. apply Nat.pow_lt_mono_r_iff in HF; lia.
  Qed.
End Inputs.

Section Queries.
  Variable K : fld.
  Variables (adicity : nat) (root : K) (threads : Z) (Com Data Pf : Type).
  Variable mmcs_commit : list (list K) -> option (Com * Data).
  Variable mmcs_matrix : Data -> list (list K).
  Variable mmcs_open : nat -> Data -> option (list (list K) * Pf).
  Variables (Ch Wit : Type).
  Variable observe_commitment : Ch -> Com -> Ch.
  Variable observe_value : Ch -> K -> Ch.
  Variable sample : Ch -> K * Ch.
  Variable grind : Ch -> Wit * Ch.
  Variable sample_bits : nat -> Ch -> nat * Ch.
  Variable InProof : Type.
  Variables (lb num_queries : nat).
  Hypothesis Hbits : forall n c, fst (sample_bits n c) < 2 ^ n.
  Lemma answer_queries_indices op data log n : forall ch qs ch', answer_queries K Data Pf mmcs_open Ch sample_bits InProof n log op data ch = Some (qs, ch') ->
    Forall (fun q => exists i, i < 2 ^ log /\ fst q = op i) qs.
  Proof.
    induction n as [|n IH]; intros ch qs ch' E; cbn [answer_queries] in E; [injection E as <- _; constructor|].
    pose proof (Hbits log ch) as Hb. destruct (sample_bits log ch) as [index ch1]. cbn [fst] in Hb. destruct (answer_query _ _ _ _ _ _); [|discriminate].
    destruct (answer_queries _ _ _ _ _ _ _ n log op data ch1) as [[qs' ch2]|] eqn:E2; [|discriminate]. injection E as <- _. constructor; [exists index; split; [exact Hb|reflexivity]|]. apply (IH _ _ _ E2).
  Qed.
  Lemma prove_indices ins first rest k op ch proof ch' : ins = first :: rest -> length first = 2 ^ k -> k < 64 ->
    prove K adicity root threads Com Data Pf mmcs_commit mmcs_matrix mmcs_open Ch Wit observe_commitment observe_value sample grind sample_bits InProof lb num_queries ins ch op = Some (proof, ch') ->
    Forall (fun q => exists i, i < 2 ^ k /\ fst q = op i) (queries _ _ _ _ _ proof).
  Proof.
    intros -> Hl Hk E. unfold prove in E. cbn [hd] in E. rewrite Hl, checked_log2_pow2 in E by exact Hk. rewrite Nat2Z.id in E.
    destruct (commit_phase _ _ _ _ _ _ _ _ _ _ _ _ _ _ _) as [[[cs final] ch1]|]; [|discriminate]. destruct (grind ch1) as [w ch2].
    destruct (answer_queries _ _ _ _ _ _ _ _ _ _ _ _) as [[qs ch3]|] eqn:E2; [|discriminate]. injection E as <- _. cbn. apply (answer_queries_indices _ _ _ _ _ _ _ E2).
  Qed.
End Queries.
