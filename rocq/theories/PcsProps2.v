(** Property theorem C125: what an accepted opening proof binds the prover to.
    PcsSpec.v defines [claim] (a committed matrix with the points and values claimed for it), [well_formed], [binds_matrices], [claimed_vectors] (the combination by powers of alpha of
    (p(x) - y) / (x - z), one vector for each height); [all_bind] and [honest_folding] are in FriSpec.v. *)
From Coq Require Import ZArith List Bool Arith Lia.
From Verif Require Import Field Zp PolySpec FFTModel FFTSpec FFTProps DomainSpec CosetModel FriModel FriSpec FriSpec2 FriExtra PcsModel PcsSpec PcsExtra PcsExtra3 PcsProof6 PcsProps.
Import ListNotations.
Open Scope nat_scope.

(** If each commitment opens to one list of matrices only and every query position is accepted, FRI was run on the quotients of the committed matrices by the claimed values, nothing else. *)
Theorem C125_binding : forall (K : fld) (adicity : nat) (root shift : K) (threads : Z) (log_blowup : nat) (ICom IPf : Type) input_verify (Com Pf : Type) mmcs_verify
    (commitments : list ICom) (domains : list (list (domain K))) (claims : list (list (claim K))) (alpha : K) (betas : list K) (commits : list Com) mats (final : K),
  adicity < 62 -> primitive_root root (2 ^ adicity) -> (0 < threads < 2 ^ 62)%Z -> 0 < log_blowup ->
  log_blowup + length commits <= adicity -> length betas = length commits ->
  Forall2 (fun com cs => Forall (well_formed adicity log_blowup) cs /\ @binds_matrices K log_blowup ICom IPf input_verify com cs) commitments claims ->
  Forall2 (Forall2 (fun c d => exists offset, new_coset adicity root (m_log c) offset = Some d)) claims domains ->
  @all_bind K Com Pf mmcs_verify commits (log_blowup + length commits) mats ->
  (forall index, index < 2 ^ (log_blowup + length commits) -> exists input_proof openings steps reduced,
     check_openings K adicity root shift log_blowup ICom IPf input_verify alpha (log_blowup + length commits) commitments domains (map (map m_points) claims) (map (map m_values) claims) index input_proof = Some reduced /\
     zip_steps K Com Pf betas commits openings = Some steps /\
     verify_query K adicity root Com Pf mmcs_verify log_blowup index (log_blowup + length commits) steps reduced = Some final) ->
  honest_folding adicity root threads (claimed_vectors adicity root shift log_blowup alpha (concat claims)) final (log_blowup + length commits) (repeat 0%fld (2 ^ (log_blowup + length commits))) betas mats.
Proof. exact pcs_binding. Qed.
Print Assumptions C125_binding.

(** An accepted opening proof: every position asked for passes these checks, with the challenges drawn from the transcript. *)
Theorem C125_accepted : forall (K : fld) (adicity : nat) (root shift : K) (log_blowup : nat) (ICom IPf : Type) input_verify (Com Pf : Type) mmcs_verify
    (Ch Wit : Type) observe_commitment observe_value sample check_witness sample_bits (num_queries : nat) commitments domains points values proof (ch ch' : Ch),
  verify_opening K adicity root shift log_blowup ICom IPf input_verify Com Pf mmcs_verify Ch Wit observe_commitment observe_value sample check_witness sample_bits num_queries
    commitments domains points values proof ch = Some (true, ch') ->
  exists alpha ch0 betas ch1 ch2, sample ch = (alpha, ch0) /\ sample_betas K Com Ch observe_commitment sample (commits _ _ _ _ _ proof) ch0 = (betas, ch1) /\
    check_witness (observe_value ch1 (final_eval _ _ _ _ _ proof)) (pow_witness _ _ _ _ _ proof) = (true, ch2) /\
    length (queries _ _ _ _ _ proof) = num_queries /\
    let k := length (commits _ _ _ _ _ proof) + log_blowup in
    Forall2 (fun index q => exists reduced steps,
       check_openings K adicity root shift log_blowup ICom IPf input_verify alpha k commitments domains points values index (fst q) = Some reduced /\
       zip_steps K Com Pf betas (commits _ _ _ _ _ proof) (snd q) = Some steps /\
       verify_query K adicity root Com Pf mmcs_verify log_blowup index k steps reduced = Some (final_eval _ _ _ _ _ proof))
      (positions sample_bits k num_queries ch2) (queries _ _ _ _ _ proof).
Proof. exact opening_accepts. Qed.
Print Assumptions C125_accepted.

(** The run of C123 over GF(17) meets these hypotheses, at all 8 positions. *)
Definition ds17 : list (list (domain F17)) := match domains17 with Some ds => ds | None => [] end.
Definition coms17 : list (list (list (list F17))) := match all_reads (map (fun bd => commit17 (fst bd) (snd bd)) (combine batches17 ds17)) with Some cds => map fst cds | None => [] end.
Definition opening : Type := option (list (list (list (list F17))) * pcs_proof F17 unit (list (list F17)) unit nat * nat).
Definition values_in (o : opening) : list (list (list (list F17))) := match o with Some (values, _, _) => values | None => [] end.
Definition layers_in (o : opening) : list (list (list F17)) := match o with Some (_, proof, _) => commits _ _ _ _ _ proof | None => [] end.
Definition final_in (o : opening) : F17 := match o with Some (_, proof, _) => final_eval _ _ _ _ _ proof | None => g17 0 end.
Definition opening17 : opening := open17 coms17 5.
Definition claims17 : list (list (claim F17)) :=
  map (fun e => map (fun f => {| m_log := Nat.pred (Nat.log2 (length (fst f))); m_rows := fst f; m_points := fst (snd f); m_values := snd (snd f) |})
                    (combine (fst e) (combine (fst (snd e)) (snd (snd e))))) (combine coms17 (combine points17 (values_in opening17))).
Definition layers17 : list (list (list F17)) := layers_in opening17.
Definition betas17 : list F17 := fst (sample_betas F17 (list (list F17)) nat (fun ch m => ch + length m) sample17 layers17 6).
Definition final17 : F17 := final_in opening17.
Definition accepted17 (index : nat) : bool :=
  let inp := open_input F17 _ _ (toy_input_matrices F17) (toy_input_open F17) 3 coms17 index in
  match check_openings F17 4 (g17 3) (g17 3) 1 _ _ (toy_input_verify F17) (fst (sample17 5)) 3 coms17 ds17 (map (map m_points) claims17) (map (map m_values) claims17) index inp, answer_query F17 _ _ (toy_open F17) index layers17 with
  | Some ro, Some op => match zip_steps F17 _ unit betas17 layers17 op with
               | Some steps => match verify_query F17 4 (g17 3) _ unit (toy_verify F17) 1 index 3 steps ro with Some f => feqb f final17 | None => false end
               | None => false
               end
  | _, _ => false
  end.
Example C125_nonvacuous : length betas17 = 2 /\ length (concat claims17) = 3 /\
  Forall2 (fun com cs => Forall (well_formed 4 1) cs /\ binds_matrices 1 (toy_input_verify F17) com cs) coms17 claims17 /\
  Forall2 (Forall2 (fun c d => exists offset, new_coset 4 (g17 3) (m_log c) offset = Some d)) claims17 ds17 /\
  all_bind (toy_verify F17) layers17 3 layers17 /\
  (forall index, index < 2 ^ 3 -> exists input_proof openings steps reduced,
     check_openings F17 4 (g17 3) (g17 3) 1 _ unit (toy_input_verify F17) (fst (sample17 5)) 3 coms17 ds17 (map (map m_points) claims17) (map (map m_values) claims17) index input_proof = Some reduced /\
     zip_steps F17 _ unit betas17 layers17 openings = Some steps /\
     verify_query F17 4 (g17 3) _ unit (toy_verify F17) 1 index 3 steps reduced = Some final17).
Proof.
  split; [vm_compute; reflexivity|]. split; [vm_compute; reflexivity|]. split; [|split; [|split]].
  - assert (A : (length coms17 =? length claims17) && forallb (fun p => rows_eqb F17 (concat (fst p)) (concat (map m_rows (snd p))) && forallb (fun q => length (fst q) =? length (m_rows (snd q))) (combine (fst p) (snd p))
              && (length (fst p) =? length (snd p)) && forallb (well_formedb 4 1) (snd p)) (combine coms17 claims17) = true) by (vm_compute; reflexivity).
    apply andb_true_iff in A. destruct A as [A1 A2]. apply Nat.eqb_eq in A1. revert A1 A2. generalize coms17 claims17. clear.
    induction l as [|com coms IH]; intros [|cs claims] L A; try discriminate; constructor; [|apply IH; [injection L as L; exact L|cbn [combine forallb] in A; apply andb_true_iff in A; apply A]].
    cbn [combine forallb fst snd] in A. rewrite !andb_true_iff in A. destruct A as [[[[A1 A2] A3] A4] _]. rewrite forallb_forall in A4.
    assert (W : Forall (well_formed 4 1) cs) by (apply Forall_forall; intros c Hc; apply well_formedb_spec, A4, Hc). split; [exact W|].
    replace com with (map m_rows cs).
    + apply toy_input_binds. eapply Forall_impl; [|exact W]. intros c Hc. apply Hc.
    + apply rows_eqb_spec in A1. apply Nat.eqb_eq in A3. symmetry. clear - A1 A2 A3. revert cs A1 A2 A3. induction com as [|m com IH]; intros [|c cs] A1 A2 A3; try discriminate; [reflexivity|].
      cbn [concat map combine forallb fst snd] in *. apply andb_true_iff in A2. destruct A2 as [A2 A4]. apply Nat.eqb_eq in A2.
      assert (E : m = m_rows c /\ concat com = concat (map m_rows cs)). { clear - A1 A2. revert A1 A2. generalize (m_rows c). induction m as [|x m IH]; intros [|y l] A1 A2; try discriminate; [split; auto|].
        cbn [app] in A1. injection A1 as -> A1. destruct (IH l A1) as [-> E]; [injection A2; auto|]. auto. }
      destruct E as [-> E]. rewrite (IH cs E A4); [reflexivity|injection A3; auto].
  - assert (L : map (map m_log) claims17 = [[2; 1]; [1]]) by (vm_compute; reflexivity). revert L. generalize claims17. intros l L.
    assert (E : match domains17 with Some _ => true | None => false end = true) by (vm_compute; reflexivity). unfold ds17. destruct domains17 as [ds|] eqn:ED; [|discriminate].
    unfold domains17, batches17 in ED. cbn [map all_reads] in ED.
    destruct (new_coset 4 (g17 3) (c_log p1) (c_offset p1)) as [d1|] eqn:E1; [|discriminate]. destruct (new_coset 4 (g17 3) (c_log p2) (c_offset p2)) as [d2|] eqn:E2; [|discriminate].
    injection ED as <-. clear E. destruct l as [|[|a [|b [|]]] [|[|c [|]] [|]]]; try discriminate L. cbn [map] in L. injection L as La Lb Lc.
    repeat constructor; [exists (c_offset p1); rewrite La; exact E1|exists (c_offset p2); rewrite Lb; exact E2|exists (c_offset p2); rewrite Lc; exact E2].
  - assert (G : forall l, length l = 2 -> length (nth 0 l []) = 4 -> length (nth 1 l []) = 2 -> forallb (fun m : list (list F17) => forallb (fun r => length r =? 2) m) l = true ->
      all_bind (toy_verify F17) l 3 l).
    { clear. intros [|m1 [|m2 [|]]] H L1 L2 L3; try discriminate. cbn [nth forallb] in L1, L2, L3. rewrite !andb_true_iff, !forallb_forall in L3. destruct L3 as (L3 & L4 & _).
      exists 2. split; [reflexivity|]. split; [apply toy_binds; [exact L1|apply Forall_forall; intros r Hr; apply Nat.eqb_eq, L3, Hr]|].
      exists 1. split; [reflexivity|]. split; [apply toy_binds; [exact L2|apply Forall_forall; intros r Hr; apply Nat.eqb_eq, L4, Hr]|exact I]. }
    apply G; vm_compute; reflexivity.
  - intros index Hi. assert (A : forallb accepted17 (seq 0 8) = true) by (vm_compute; reflexivity). rewrite forallb_forall in A.
    specialize (A index ltac:(apply in_seq; cbn in Hi; lia)). unfold accepted17 in A. cbv zeta in A.
    destruct (check_openings _ _ _ _ _ _ _ _ _ _ _ _ _ _ _ _) as [ro|] eqn:Er in A; [|discriminate].
    destruct (answer_query _ _ _ _ _ _) as [op|]; [|discriminate].
    destruct (zip_steps _ _ _ _ _ _) as [steps|] eqn:Ez; [|discriminate]. eexists _, op, steps, ro. split; [exact Er|]. split; [exact Ez|].
    destruct (verify_query _ _ _ _ _ _ _ _ _ _ _) as [f|]; [|discriminate]. apply feqb_eq in A. congruence.
Qed.
