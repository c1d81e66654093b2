(** The toy commitment scheme for batches of matrices binds; boolean forms of the hypotheses of C125 for its example. *)
From Coq Require Import ZArith List Bool Arith Lia.
From Verif Require Import Field FFTModel FriModel FriSpec2 FriExtra FriExtra3 PcsModel PcsSpec PcsExtra.
Import ListNotations.
Open Scope nat_scope.

Lemma rows_eqb_spec (K : fld) a : forall b, rows_eqb K a b = true -> a = b.
Proof.
  induction a as [|x a IH]; intros [|y b] H; try discriminate; [reflexivity|]. cbn [rows_eqb] in H. apply andb_true_iff in H. destruct H as [H1 H2].
  apply row_eqb_spec in H1. rewrite H1, (IH b H2). reflexivity.
Qed.
Lemma list_max_pow2 l : l <> [] -> list_max (map (fun h => 2 ^ h) l) = 2 ^ list_max l.
Proof.
  induction l as [|x [|y l] IH]; intros H; [congruence|cbn; rewrite !Nat.max_0_r; reflexivity|]. 
  change (list_max (map (fun h => 2 ^ h) (x :: y :: l))) with (Nat.max (2 ^ x) (list_max (map (fun h => 2 ^ h) (y :: l)))). rewrite IH by discriminate.
  change (list_max (x :: y :: l)) with (Nat.max x (list_max (y :: l))). generalize (list_max (y :: l)). intros n. clear.
  destruct (Nat.le_ge_cases x n) as [H|H]; pose proof (Nat.pow_le_mono_r 2 _ _ ltac:(lia) H); [rewrite !Nat.max_r|rewrite !Nat.max_l]; auto.
Qed.
Lemma toy_input_binds (K : fld) lb (cs : list (claim K)) : Forall (fun c => length (m_rows c) = 2 ^ height lb c) cs -> binds_matrices lb (toy_input_verify K) (map m_rows cs) cs.
Proof.
  intros HF i rows pf Hi H. unfold toy_input_verify in H. apply rows_eqb_spec in H. subst rows. unfold rows_of. rewrite map_map. apply map_ext_in. intros c Hc.
  assert (T : tallest (map m_rows cs) = 2 ^ list_max (map (height lb) cs)).
  { unfold tallest. rewrite <- list_max_pow2 by (destruct cs; [destruct Hc|discriminate]). f_equal. rewrite !map_map. apply map_ext_in. intros a Ha. rewrite Forall_forall in HF. apply HF, Ha. }
  rewrite T, (proj1 (Forall_forall _ _) HF c Hc). f_equal. f_equal.
  assert (L : height lb c <= list_max (map (height lb) cs)).
  { pose proof (proj1 (list_max_le (map (height lb) cs) _) (le_n _)) as M. rewrite Forall_forall in M. apply M, in_map, Hc. }
  replace (list_max (map (height lb) cs)) with ((list_max (map (height lb) cs) - height lb c) + height lb c) at 1 by lia.
  rewrite Nat.pow_add_r, Nat.div_mul; [reflexivity|]. apply Nat.pow_nonzero. lia.
Qed.
Definition well_formedb {K : fld} adicity lb (c : claim K) : bool :=
  (0 <? m_log c) && (height lb c <=? adicity) && (length (m_rows c) =? 2 ^ height lb c) && (length (m_values c) =? length (m_points c)).
Lemma well_formedb_spec (K : fld) adicity lb (c : claim K) : well_formedb adicity lb c = true -> well_formed adicity lb c.
Proof.
  unfold well_formedb, well_formed. rewrite !andb_true_iff, Nat.ltb_lt, Nat.leb_le, !Nat.eqb_eq. tauto.
Qed.
Lemma opening_accepts : forall (K : fld) (adicity : nat) (root shift : K) (log_blowup : nat) (ICom IPf : Type) input_verify (Com Pf : Type) mmcs_verify
    (Ch Wit : Type) observe_commitment observe_value sample check_witness sample_bits (num_queries : nat) commitments domains points values proof (ch ch' : Ch),
  verify_opening K adicity root shift log_blowup ICom IPf input_verify Com Pf mmcs_verify Ch Wit observe_commitment observe_value sample check_witness sample_bits num_queries
    commitments domains points values proof ch = Some (true, ch') ->
  exists alpha ch0 betas ch1 ch2, sample ch = (alpha, ch0) /\ sample_betas K Com Ch observe_commitment sample (commits _ _ _ _ _ proof) ch0 = (betas, ch1) /\
    check_witness (observe_value ch1 (final_eval _ _ _ _ _ proof)) (pow_witness _ _ _ _ _ proof) = (true, ch2) /\
    length (queries _ _ _ _ _ proof) = num_queries /\
    let k := length (commits _ _ _ _ _ proof) + log_blowup in
    Forall2 (fun index q => exists reduced steps,
       check_openings K adicity root shift log_blowup ICom IPf input_verify alpha k commitments domains points values index (fst q) = Some reduced /\
       zip_steps K Com Pf betas (commits _ _ _ _ _ proof) (snd q) = Some steps /\
       verify_query K adicity root Com Pf mmcs_verify log_blowup index k steps reduced = Some (final_eval _ _ _ _ _ proof))
      (positions sample_bits k num_queries ch2) (queries _ _ _ _ _ proof).
Proof.
  intros K ad root sh lb ICom IPf iv Com Pf mv Ch Wit oc ov s cw sb nq coms dss zss vss proof ch ch' H. unfold verify_opening in H. destruct (s ch) as [alpha ch0].
  apply verify_accepts in H. destruct H as (betas & ch1 & ch2 & H1 & H2 & H3 & H4). exists alpha, ch0, betas, ch1, ch2. auto.
Qed.
