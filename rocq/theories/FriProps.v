(** Property theorems C61, C112, C113: FRI.
    FriSpec.v defines [evaluations_of] (a vector of values in bit-reversed order), [fold_poly] (even part + beta * odd part), [low_degree],
    [openings_at] (what the verifier has to know about the inputs), [honest_folding], [complete_mmcs] and [binds]. *)
From Coq Require Import ZArith List Bool Arith Lia Sorting.Sorted.
From Verif Require Import Field Zp PolySpec BitsSpec FFTSpec FFTProps FriModel FriSpec FriProof FriProof2 FriProof3 FriExtra.
Import ListNotations.
Open Scope nat_scope.

(** Folding the values of a polynomial gives the values of the folded polynomial, of half the degree, on the squares; the row the verifier folds is the row the prover folded. *)
Theorem C61_fold : forall (K : fld) (adicity : nat) (root : K) (threads : Z) (beta : K) (k : nat) (c v : list K),
  adicity < 63 -> primitive_root root (2 ^ adicity) -> ((1 + 1 : K) <> 0)%fld -> (0 < threads < 2 ^ 63)%Z -> 0 < k < adicity ->
  evaluations_of adicity root c (S k) v ->
  2 * length (fold_poly beta c) <= length c + 1 /\
  exists m f, leaves v = Some m /\ length m = 2 ^ k /\ Forall (fun row => length row = 2) m /\
    (forall i, i < 2 ^ k -> nth i m [] = [nth (2 * i) v 0%fld; nth (2 * i + 1) v 0%fld]) /\
    fold_matrix adicity root threads beta m = Some f /\ evaluations_of adicity root (fold_poly beta c) k f.
Proof. exact (fun K ad root th beta k c v H1 H2 H3 H4 H5 H6 => conj (fold_poly_length K ad H1 beta (length c) c (le_n _)) (fold_evaluations K ad root H1 H2 H3 th beta k c v H4 (proj1 H5) (proj2 H5) H6)). Qed.
Print Assumptions C61_fold.

Theorem C61_rows : forall (K : fld) (adicity : nat) (root : K) (threads : Z) (beta : K) (k : nat) (m : list (list K)),
  adicity < 63 -> primitive_root root (2 ^ adicity) -> (0 < threads < 2 ^ 63)%Z -> 0 < k < adicity ->
  length m = 2 ^ k -> Forall (fun row => length row = 2) m ->
  exists f, fold_matrix adicity root threads beta m = Some f /\ length f = 2 ^ k /\
    forall i, i < 2 ^ k -> fold_row adicity root i k beta (nth i m []) = nth_error f i.
Proof. exact (fun K ad root th beta k m H1 H2 H3 H4 => fold_matrix_rows K ad root H1 H2 th beta k m H3 (proj1 H4) (proj2 H4)). Qed.
Print Assumptions C61_rows.

(** Whatever the commitment scheme (complete) and the challenger, a proof for low-degree inputs of different sizes, all larger than the blowup, verifies,
    and prover and verifier leave their challengers in the same state. *)
Theorem C61_completeness : forall (K : fld) (adicity : nat) (root : K) (threads : Z) (Com Data Pf : Type)
    mmcs_commit mmcs_matrix mmcs_open mmcs_verify (Ch Wit : Type) observe_commitment observe_value sample grind check_witness sample_bits
    (InProof : Type) (log_blowup num_queries : nat) (inputs : list (list K)) (k : nat) open_input open_input_v (ch : Ch),
  adicity < 63 -> primitive_root root (2 ^ adicity) -> ((1 + 1 : K) <> 0)%fld -> (0 < threads < 2 ^ 63)%Z -> 0 < log_blowup -> k <= adicity ->
  complete_mmcs mmcs_commit mmcs_matrix mmcs_open mmcs_verify ->
  (exists first rest, inputs = first :: rest /\ length first = 2 ^ k) -> decreasing inputs ->
  (forall v, In v inputs -> exists j, low_degree adicity root log_blowup j v) -> Forall (fun v => 2 ^ log_blowup < length v) inputs ->
  (forall n c, fst (sample_bits n c) < 2 ^ n) ->
  (forall c, check_witness c (fst (grind c)) = (true, snd (grind c))) ->
  (forall index, index < 2 ^ k -> open_input_v index (open_input index) = Some (openings_at k index inputs)) ->
  exists proof ch',
    prove K adicity root threads Com Data Pf mmcs_commit mmcs_matrix mmcs_open Ch Wit observe_commitment observe_value sample grind sample_bits InProof log_blowup num_queries inputs ch open_input = Some (proof, ch') /\
    verify K adicity root Com Pf mmcs_verify Ch Wit observe_commitment observe_value sample check_witness sample_bits InProof log_blowup num_queries proof ch open_input_v = Some (true, ch').
Proof.
  exact (fun K ad root th Com Data Pf mc mm mo mv Ch Wit oc ov s g cw sb IP lb nq ins k op opv ch H1 H2 H3 H4 H5 H6 H7 H8 H9 H10 H11 H12 H13 H14 =>
    fri_complete K ad root th H1 H2 H3 H4 Com Data Pf mc mm mo mv Ch Wit oc ov s g cw sb IP lb nq H5 H7 ins k H8 H9 H10 H6 op H12 H11 H13 opv H14 ch).
Qed.
Print Assumptions C61_completeness.

(** If each commitment opens to one matrix only and every position is accepted, the matrices are the honest foldings of the inputs, and the last one is constant. *)
Theorem C112_binding : forall (K : fld) (adicity : nat) (root : K) (threads : Z) (Com Pf : Type)
    (mmcs_verify : Com -> nat * nat -> nat -> list (list K) -> Pf -> bool) (log_blowup k : nat) (inputs : list (list K)) (betas : list K) (commits : list Com)
    (mats : list (list (list K))) (final : K),
  adicity < 63 -> primitive_root root (2 ^ adicity) -> (0 < threads < 2 ^ 63)%Z -> 0 < log_blowup ->
  k <= adicity -> k = log_blowup + length commits -> length betas = length commits ->
  decreasing inputs -> (forall v, In v inputs -> exists j, log_blowup < j <= k /\ length v = 2 ^ j) ->
  all_bind mmcs_verify commits k mats ->
  (forall index, index < 2 ^ k -> exists openings steps,
     zip_steps K Com Pf betas commits openings = Some steps /\
     verify_query K adicity root Com Pf mmcs_verify log_blowup index k steps (openings_at k index inputs) = Some final) ->
  honest_folding adicity root threads inputs final k (repeat 0%fld (2 ^ k)) betas mats.
Proof. exact fri_binding. Qed.
Print Assumptions C112_binding.

(** An input of exactly the blowup size (a committed matrix of one row): the prover succeeds, and no proof whatsoever verifies. *)
Theorem C113_single_row_refuted : forall (K : fld) (adicity : nat) (root : K) (threads : Z) (Com Data Pf : Type)
    mmcs_commit mmcs_matrix mmcs_open mmcs_verify (Ch Wit : Type) observe_commitment observe_value sample grind check_witness sample_bits
    (InProof : Type) (log_blowup num_queries : nat) (inputs : list (list K)) (k : nat) open_input open_input_v (ch : Ch),
  adicity < 63 -> primitive_root root (2 ^ adicity) -> ((1 + 1 : K) <> 0)%fld -> (0 < threads < 2 ^ 63)%Z -> 0 < log_blowup -> k <= adicity ->
  complete_mmcs mmcs_commit mmcs_matrix mmcs_open mmcs_verify ->
  (exists first rest, inputs = first :: rest /\ length first = 2 ^ k) -> decreasing inputs ->
  (forall v, In v inputs -> exists j, low_degree adicity root log_blowup j v) ->
  (forall n c, fst (sample_bits n c) < 2 ^ n) -> 0 < num_queries ->
  (exists v, In v inputs /\ length v = 2 ^ log_blowup) ->
  (forall index inp ro, open_input_v index inp = Some ro -> ro = openings_at k index inputs) ->
  (exists proof ch', prove K adicity root threads Com Data Pf mmcs_commit mmcs_matrix mmcs_open Ch Wit observe_commitment observe_value sample grind sample_bits InProof log_blowup num_queries inputs ch open_input = Some (proof, ch')) /\
  forall proof ch', verify K adicity root Com Pf mmcs_verify Ch Wit observe_commitment observe_value sample check_witness sample_bits InProof log_blowup num_queries proof ch open_input_v <> Some (true, ch').
Proof. exact single_row. Qed.
Print Assumptions C113_single_row_refuted.

(** A run over GF(17): inputs of sizes 8 and 4 at blowup 2, three queries, a challenger that counts. *)
Definition in17 : list (list F17) := [codeword 4 (g17 3) [g17 5; g17 1; g17 4; g17 2] 3; codeword 4 (g17 3) [g17 7; g17 9] 2].
Definition in17_small : list (list F17) := [codeword 4 (g17 3) [g17 5; g17 1; g17 4; g17 2] 3; codeword 4 (g17 3) [g17 7] 1].
Definition toy_prove (ins : list (list F17)) :=
  prove F17 4 (g17 3) 2 _ _ _ (toy_commit F17) (toy_matrix F17) (toy_open F17) nat nat (fun ch m => ch + length m) (fun ch v => ch + Z.to_nat (zval 17 v))
    (fun ch => (g17 (Z.of_nat (ch mod 17)), S ch)) (fun ch => (ch, S ch)) (fun n ch => (ch mod 2 ^ n, ch + 3)) nat 1 3 ins 5 (fun i => i).
Definition toy_verify_run (ins : list (list F17)) (k : nat) proof :=
  option_map fst (verify F17 4 (g17 3) _ _ (toy_verify F17) nat nat (fun ch m => ch + length m) (fun ch v => ch + Z.to_nat (zval 17 v))
    (fun ch => (g17 (Z.of_nat (ch mod 17)), S ch)) (fun ch w => (ch =? w, S ch)) (fun n ch => (ch mod 2 ^ n, ch + 3)) nat 1 3 proof 5 (fun i _ => Some (openings_at k i ins))).
Definition forge (p : fri_proof F17 (list (list F17)) unit nat nat) : fri_proof F17 (list (list F17)) unit nat nat :=
  {| commits := commits _ _ _ _ _ p; queries := queries _ _ _ _ _ p; final_eval := (final_eval _ _ _ _ _ p + 1)%fld; pow_witness := S (pow_witness _ _ _ _ _ p) |}.

Example C61_nonvacuous :
  (forall v, In v in17 -> exists j, low_degree 4 (g17 3) 1 j v) /\ decreasing in17 /\ Forall (fun v => 2 ^ 1 < length v) in17 /\
  complete_mmcs (toy_commit F17) (toy_matrix F17) (toy_open F17) (toy_verify F17) /\ primitive_root (g17 3) (2 ^ 4) /\
  match toy_prove in17 with Some (p, _) => toy_verify_run in17 3 p = Some true /\ length (commits _ _ _ _ _ p) = 2 /\ toy_verify_run in17 3 (forge p) <> Some true | None => False end.
Proof.
  split; [|split; [|split; [|split; [|split]]]].
  - intros v [<-|[<-|[]]]; [exists 3|exists 2]; apply codeword_low; vm_compute; lia.
  - repeat constructor.
  - repeat constructor.
  - apply toy_complete.
  - exact root17.
  - vm_compute. split; [reflexivity|]. split; [reflexivity|]. discriminate.
Qed.
Example C113_nonvacuous :
  (forall v, In v in17_small -> exists j, low_degree 4 (g17 3) 1 j v) /\ decreasing in17_small /\
  match toy_prove in17_small with Some (p, _) => toy_verify_run in17_small 3 p = None | None => False end.
Proof.
  split; [|split].
  - intros v [<-|[<-|[]]]; [exists 3|exists 1]; apply codeword_low; vm_compute; lia.
  - repeat constructor.
  - vm_compute. reflexivity.
Qed.
(** The matrices of that run satisfy the hypotheses of C112, for all 8 positions. *)
Definition run17 := match toy_prove in17 with Some (p, _) => commits _ _ _ _ _ p | None => [] end.
Definition betas17 := fst (sample_betas F17 (list (list F17)) nat (fun ch m => ch + length m) (fun ch => (g17 (Z.of_nat (ch mod 17)), S ch)) run17 5).
Definition final17 : F17 := match toy_prove in17 with Some (p, _) => final_eval _ _ _ _ _ p | None => g17 0 end.
Definition accepted17 (index : nat) : bool :=
  match answer_query F17 _ _ (toy_open F17) index run17 with
  | Some op => match zip_steps F17 _ unit betas17 run17 op with
               | Some steps => match verify_query F17 4 (g17 3) _ unit (toy_verify F17) 1 index 3 steps (openings_at 3 index in17) with Some f => feqb f final17 | None => false end
               | None => false
               end
  | None => false
  end.
Example C112_nonvacuous : length betas17 = 2 /\ all_bind (toy_verify F17) run17 3 run17 /\
  (forall index, index < 2 ^ 3 -> exists openings steps, zip_steps F17 _ unit betas17 run17 openings = Some steps /\
     verify_query F17 4 (g17 3) _ unit (toy_verify F17) 1 index 3 steps (openings_at 3 index in17) = Some final17) /\
  honest_folding 4 (g17 3) 2 in17 final17 3 (repeat 0%fld (2 ^ 3)) betas17 run17.
Proof.
  assert (HL : length betas17 = 2) by (vm_compute; reflexivity).
  assert (HN : length run17 = 2) by (vm_compute; reflexivity).
  assert (HB : all_bind (toy_verify F17) run17 3 run17).
  { assert (G : forall l, length l = 2 -> length (nth 0 l []) = 4 -> length (nth 1 l []) = 2 -> forallb (fun m : list (list F17) => forallb (fun r => length r =? 2) m) l = true ->
      all_bind (toy_verify F17) l 3 l).
    { clear. intros [|m1 [|m2 [|]]] H L1 L2 L3; try discriminate. cbn [nth forallb] in L1, L2, L3. rewrite !andb_true_iff, !forallb_forall in L3. destruct L3 as (L3 & L4 & _).
      exists 2. split; [reflexivity|]. split; [apply toy_binds; [exact L1|apply Forall_forall; intros r Hr; apply Nat.eqb_eq, L3, Hr]|].
      exists 1. split; [reflexivity|]. split; [apply toy_binds; [exact L2|apply Forall_forall; intros r Hr; apply Nat.eqb_eq, L4, Hr]|exact I]. }
    apply G; vm_compute; reflexivity. }
  assert (HA : forall index, index < 2 ^ 3 -> exists openings steps, zip_steps F17 _ unit betas17 run17 openings = Some steps /\
     verify_query F17 4 (g17 3) _ unit (toy_verify F17) 1 index 3 steps (openings_at 3 index in17) = Some final17).
  { intros index Hi. assert (A : forallb accepted17 (seq 0 8) = true) by (vm_compute; reflexivity). rewrite forallb_forall in A.
    specialize (A index ltac:(apply in_seq; cbn in Hi; lia)). unfold accepted17 in A. destruct (answer_query _ _ _ _ _ _) as [op|]; [|discriminate].
    destruct (zip_steps _ _ _ _ _ _) as [steps|] eqn:Ez; [|discriminate]. exists op, steps. split; [exact Ez|].
    destruct (verify_query _ _ _ _ _ _ _ _ _ _ _) as [f|]; [|discriminate]. apply feqb_eq in A. congruence. }
  split; [exact HL|]. split; [exact HB|]. split; [exact HA|].
  apply (C112_binding F17 4 (g17 3) 2 _ unit (toy_verify F17) 1 3 in17 betas17 run17 run17 final17 ltac:(lia) root17 ltac:(lia) ltac:(lia) ltac:(lia)).
  - rewrite HN. reflexivity.
  - rewrite HN. exact HL.
  - repeat constructor.
  - intros v [<-|[<-|[]]]; [exists 3|exists 2]; (split; [lia|reflexivity]).
  - exact HB.
  - exact HA.
Qed.
