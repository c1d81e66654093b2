(** Property theorems C112 (second part), C126, C127: what FRI's acceptance says about the proof and about the degree of its inputs. FriSpec.v and FriSpec2.v define the vocabulary. *)
From Coq Require Import ZArith List Bool Arith Lia Sorting.Sorted.
From Verif Require Import Field Zp PolySpec BitsSpec FFTSpec FFTProps FriModel FriSpec FriSpec2 FriProof4 FriExtra FriExtra2 FriExtra3 FriProps.
Import ListNotations.
Open Scope nat_scope.

(** An accepted proof has a valid proof of work on the transcript, the configured number of queries, and at every position asked for, in order, the query ends in the proof's constant. *)
Theorem C112_accepted : forall (K : fld) (adicity : nat) (root : K) (Com Pf : Type) mmcs_verify (Ch Wit : Type) observe_commitment observe_value sample check_witness sample_bits
    (InProof : Type) (log_blowup num_queries : nat) proof (ch ch' : Ch) open_input_v,
  verify K adicity root Com Pf mmcs_verify Ch Wit observe_commitment observe_value sample check_witness sample_bits InProof log_blowup num_queries proof ch open_input_v = Some (true, ch') ->
  exists betas ch1 ch2, sample_betas K Com Ch observe_commitment sample (commits _ _ _ _ _ proof) ch = (betas, ch1) /\
    check_witness (observe_value ch1 (final_eval _ _ _ _ _ proof)) (pow_witness _ _ _ _ _ proof) = (true, ch2) /\
    length (queries _ _ _ _ _ proof) = num_queries /\
    let k := length (commits _ _ _ _ _ proof) + log_blowup in
    Forall2 (fun index q => exists reduced steps, open_input_v index (fst q) = Some reduced /\ zip_steps K Com Pf betas (commits _ _ _ _ _ proof) (snd q) = Some steps /\
       verify_query K adicity root Com Pf mmcs_verify log_blowup index k steps reduced = Some (final_eval _ _ _ _ _ proof))
      (positions sample_bits k num_queries ch2) (queries _ _ _ _ _ proof).
Proof. exact verify_accepts. Qed.
Print Assumptions C112_accepted.

(** One input, every position accepted: it is of low degree, or some layer, committed to before its challenge is drawn, folds to low degree under that one challenge and under no other element of the field. *)
Theorem C126_soundness : forall (K : fld) (adicity : nat) (root : K) (threads : Z) (Com Pf : Type)
    (mmcs_verify : Com -> nat * nat -> nat -> list (list K) -> Pf -> bool) (log_blowup k : nat) (input : list K) (betas : list K) (commits : list Com)
    (mats : list (list (list K))) (final : K),
  adicity < 62 -> primitive_root root (2 ^ adicity) -> ((1 + 1 : K) <> 0)%fld -> (0 < threads < 2 ^ 63)%Z -> 0 < log_blowup ->
  k <= adicity -> k = log_blowup + length commits -> 0 < length commits -> length betas = length commits -> length input = 2 ^ k ->
  all_bind mmcs_verify commits k mats ->
  (forall index, index < 2 ^ k -> exists openings steps,
     zip_steps K Com Pf betas commits openings = Some steps /\
     verify_query K adicity root Com Pf mmcs_verify log_blowup index k steps (openings_at k index [input]) = Some final) ->
  low_degree adicity root log_blowup k input \/
  exists i m beta, nth_error mats i = Some m /\ nth_error betas i = Some beta /\
    forall b, (exists g, fold_matrix adicity root threads b m = Some g /\ low_degree adicity root log_blowup (k - S i) g) <-> b = beta.
Proof. exact accepted_sound. Qed.
Print Assumptions C126_soundness.

(** Inputs of two sizes: the smaller one is added to the folding of the larger one with no random factor. Whatever the vector [e], far from low degree or not, the proof the prover makes
    for [e] with every entry doubled, and its negation, is accepted under every commitment scheme and for every challenger; both are of low degree only if [e] is. *)
Theorem C127_mixed_sizes_refuted : forall (K : fld) (adicity : nat) (root : K) (threads : Z) (Com Data Pf : Type)
    mmcs_commit mmcs_matrix mmcs_open mmcs_verify (Ch Wit : Type) observe_commitment observe_value sample grind check_witness sample_bits
    (InProof : Type) (log_blowup num_queries k : nat) (e : list K) open_input open_input_v (ch : Ch),
  adicity < 63 -> primitive_root root (2 ^ adicity) -> ((1 + 1 : K) <> 0)%fld -> (0 < threads < 2 ^ 63)%Z -> 0 < log_blowup -> log_blowup < k < adicity ->
  @complete_mmcs K Com Data Pf mmcs_commit mmcs_matrix mmcs_open mmcs_verify ->
  length e = 2 ^ k -> ~ low_degree adicity root log_blowup k e ->
  (forall n c, fst (sample_bits n c) < 2 ^ n) -> (forall c, check_witness c (fst (grind c)) = (true, snd (grind c))) ->
  let larger := flat_map (fun x => [x; x]) e in let smaller := map fopp e in
  (forall index, index < 2 ^ S k -> open_input_v index (open_input index) = Some (openings_at (S k) index [larger; smaller])) ->
  ~ low_degree adicity root log_blowup (S k) larger /\ ~ low_degree adicity root log_blowup k smaller /\
  exists proof ch',
    prove K adicity root threads Com Data Pf mmcs_commit mmcs_matrix mmcs_open Ch Wit observe_commitment observe_value sample grind sample_bits InProof log_blowup num_queries
      [larger; smaller] ch open_input = Some (proof, ch') /\
    verify K adicity root Com Pf mmcs_verify Ch Wit observe_commitment observe_value sample check_witness sample_bits InProof log_blowup num_queries proof ch open_input_v = Some (true, ch').
Proof. exact mixed_sizes. Qed.
Print Assumptions C127_mixed_sizes_refuted.

(** C126 in a run over GF(17): one input of 8 values, all positions accepted. *)
Definition one17 : list (list F17) := [codeword 4 (g17 3) [g17 5; g17 1; g17 4; g17 2] 3].
Definition run1 := match toy_prove one17 with Some (p, _) => commits _ _ _ _ _ p | None => [] end.
Definition betas1 := fst (sample_betas F17 (list (list F17)) nat (fun ch m => ch + length m) (fun ch => (g17 (Z.of_nat (ch mod 17)), S ch)) run1 5).
Definition final1 : F17 := match toy_prove one17 with Some (p, _) => final_eval _ _ _ _ _ p | None => g17 0 end.
Definition accepted1 (index : nat) : bool :=
  match answer_query F17 _ _ (toy_open F17) index run1 with
  | Some op => match zip_steps F17 _ unit betas1 run1 op with
               | Some steps => match verify_query F17 4 (g17 3) _ unit (toy_verify F17) 1 index 3 steps (openings_at 3 index one17) with Some f => feqb f final1 | None => false end
               | None => false
               end
  | None => false
  end.
Example C126_nonvacuous : length betas1 = 2 /\ length run1 = 2 /\ all_bind (toy_verify F17) run1 3 run1 /\
  (forall index, index < 2 ^ 3 -> exists openings steps, zip_steps F17 _ unit betas1 run1 openings = Some steps /\
     verify_query F17 4 (g17 3) _ unit (toy_verify F17) 1 index 3 steps (openings_at 3 index one17) = Some final1).
Proof.
  split; [vm_compute; reflexivity|]. split; [vm_compute; reflexivity|]. split.
  - assert (G : forall l, length l = 2 -> length (nth 0 l []) = 4 -> length (nth 1 l []) = 2 -> forallb (fun m : list (list F17) => forallb (fun r => length r =? 2) m) l = true ->
      all_bind (toy_verify F17) l 3 l).
    { clear. intros [|m1 [|m2 [|]]] H L1 L2 L3; try discriminate. cbn [nth forallb] in L1, L2, L3. rewrite !andb_true_iff, !forallb_forall in L3. destruct L3 as (L3 & L4 & _).
      exists 2. split; [reflexivity|]. split; [apply toy_binds; [exact L1|apply Forall_forall; intros r Hr; apply Nat.eqb_eq, L3, Hr]|].
      exists 1. split; [reflexivity|]. split; [apply toy_binds; [exact L2|apply Forall_forall; intros r Hr; apply Nat.eqb_eq, L4, Hr]|exact I]. }
    apply G; vm_compute; reflexivity.
  - intros index Hi. assert (A : forallb accepted1 (seq 0 8) = true) by (vm_compute; reflexivity). rewrite forallb_forall in A.
    specialize (A index ltac:(apply in_seq; cbn in Hi; lia)). unfold accepted1 in A. destruct (answer_query _ _ _ _ _ _) as [op|]; [|discriminate].
    destruct (zip_steps _ _ _ _ _ _) as [steps|] eqn:Ez; [|discriminate]. exists op, steps. split; [exact Ez|].
    destruct (verify_query _ _ _ _ _ _ _ _ _ _ _) as [f|]; [|discriminate]. apply feqb_eq in A. congruence.
Qed.
(** C127 over GF(17): [e] is the values of X^2 on a subgroup of size 4, of degree too large at blowup 2. The forged inputs are accepted in the run, one of them alone is not. *)
Definition e17 : list F17 := codeword 4 (g17 3) [g17 0; g17 0; g17 1] 2.
Definition forged17 : list (list F17) := [flat_map (fun x => [x; x]) e17; map fopp e17].
Example C127_nonvacuous : length e17 = 2 ^ 2 /\ ~ low_degree 4 (g17 3) 1 2 e17 /\
  match toy_prove forged17 with Some (p, _) => toy_verify_run forged17 3 p = Some true /\ toy_verify_run [nth 0 forged17 []] 3 p <> Some true | None => False end.
Proof.
  split; [reflexivity|]. split; [|vm_compute; split; [reflexivity|discriminate]].
  intros L. assert (E : evaluations_of 4 (g17 3) [g17 0; g17 0; g17 1] 2 e17) by apply codeword_evals.
  apply (low_coeffs F17 4 (g17 3) 1 ltac:(lia) root17 2 e17 [g17 0; g17 0; g17 1]) with (j := 2) in L; try (cbn; lia); [|exact E].
  apply (f_equal (zval 17)) in L. discriminate L.
Qed.
