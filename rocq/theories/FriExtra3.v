(** The statements of FriProps2.v. *)
From Coq Require Import ZArith List Bool Lia Arith.
From Verif Require Import Field BitsSpec PolySpec FFTSpec FriModel FriSpec FriSpec2 FriProof4 FriExtra FriExtra2.
Import ListNotations.
Open Scope nat_scope.

Lemma accepted_sound : forall (K : fld) (adicity : nat) (root : K) (threads : Z) (Com Pf : Type)
    (mmcs_verify : Com -> nat * nat -> nat -> list (list K) -> Pf -> bool) (lb k : nat) (input : list K) (betas : list K) (commits : list Com)
    (mats : list (list (list K))) (final : K),
  adicity < 62 -> primitive_root root (2 ^ adicity) -> ((1 + 1 : K) <> 0)%fld -> (0 < threads < 2 ^ 63)%Z -> 0 < lb ->
  k <= adicity -> k = lb + length commits -> 0 < length commits -> length betas = length commits -> length input = 2 ^ k ->
  all_bind mmcs_verify commits k mats ->
  (forall index, index < 2 ^ k -> exists openings steps,
     zip_steps K Com Pf betas commits openings = Some steps /\
     verify_query K adicity root Com Pf mmcs_verify lb index k steps (openings_at k index [input]) = Some final) ->
  low_degree adicity root lb k input \/
  exists i m beta, nth_error mats i = Some m /\ nth_error betas i = Some beta /\
    forall b, (exists g, fold_matrix adicity root threads b m = Some g /\ low_degree adicity root lb (k - S i) g) <-> b = beta.
Proof.
  intros K ad root th Com Pf mv lb k f betas cs mats final H1 H2 H3 H4 H5 H6 H7 H8 H9 H10 H11 H12.
  apply (fri_sound K ad root th lb H1 H2 H3 H4 final betas mats k f); auto; try lia.
  apply (fri_binding K ad root th Com Pf mv lb k [f] betas cs mats final); auto; try lia.
  - repeat constructor.
  - intros v [<-|[]]. exists k. split; [lia|exact H10].
Qed.
Lemma codeword_evals {K : fld} adicity (root : K) c k : evaluations_of adicity root c k (codeword adicity root c k).
Proof.
  unfold codeword. split; [rewrite map_length, seq_length; reflexivity|].
  intros r Hr. erewrite nth_error_nth; [reflexivity|]. rewrite nth_error_map, (nth_error_nth' _ 0) by (rewrite seq_length; exact Hr). rewrite seq_nth by exact Hr. reflexivity.
Qed.
Lemma mixed_sizes : forall (K : fld) (adicity : nat) (root : K) (threads : Z) (Com Data Pf : Type)
    mmcs_commit mmcs_matrix mmcs_open mmcs_verify (Ch Wit : Type) observe_commitment observe_value sample grind check_witness sample_bits
    (InProof : Type) (lb num_queries k : nat) (e : list K) open_input open_input_v (ch : Ch),
  adicity < 63 -> primitive_root root (2 ^ adicity) -> ((1 + 1 : K) <> 0)%fld -> (0 < threads < 2 ^ 63)%Z -> 0 < lb -> lb < k < adicity ->
  @complete_mmcs K Com Data Pf mmcs_commit mmcs_matrix mmcs_open mmcs_verify ->
  length e = 2 ^ k -> ~ low_degree adicity root lb k e ->
  (forall n c, fst (sample_bits n c) < 2 ^ n) -> (forall c, check_witness c (fst (grind c)) = (true, snd (grind c))) ->
  let larger := flat_map (fun x => [x; x]) e in let smaller := map fopp e in
  (forall index, index < 2 ^ S k -> open_input_v index (open_input index) = Some (openings_at (S k) index [larger; smaller])) ->
  ~ low_degree adicity root lb (S k) larger /\ ~ low_degree adicity root lb k smaller /\
  exists proof ch',
    prove K adicity root threads Com Data Pf mmcs_commit mmcs_matrix mmcs_open Ch Wit observe_commitment observe_value sample grind sample_bits InProof lb num_queries
      [larger; smaller] ch open_input = Some (proof, ch') /\
    verify K adicity root Com Pf mmcs_verify Ch Wit observe_commitment observe_value sample check_witness sample_bits InProof lb num_queries proof ch open_input_v = Some (true, ch').
Proof.
  intros K ad root th Com Data Pf mc mm mo mv Ch Wit oc ov s g cw sb IP lb nq k e op opv ch H1 H2 H3 H4 H5 H6 H7 He Hlow H8 H9 larger smaller H10.
  split; [intros L; apply Hlow, (twice_low K ad root th lb k e H1 H2 H3 H4 H5 (proj1 H6) (proj2 H6) He L)|].
  split; [intros L; apply Hlow, (minus_low K ad root lb k e He L)|].
  exact (cancelling_inputs K ad root th Com Data Pf mc mm mo mv Ch Wit oc ov s g cw sb IP lb nq k e op opv ch H1 H2 H3 H4 H5 H6 H7 He H8 H9 H10).
Qed.

Lemma verify_accepts : forall (K : fld) (adicity : nat) (root : K) (Com Pf : Type) mmcs_verify (Ch Wit : Type) observe_commitment observe_value sample check_witness sample_bits
    (InProof : Type) (lb num_queries : nat) proof (ch ch' : Ch) open_input_v,
  verify K adicity root Com Pf mmcs_verify Ch Wit observe_commitment observe_value sample check_witness sample_bits InProof lb num_queries proof ch open_input_v = Some (true, ch') ->
  exists betas ch1 ch2, sample_betas K Com Ch observe_commitment sample (commits _ _ _ _ _ proof) ch = (betas, ch1) /\
    check_witness (observe_value ch1 (final_eval _ _ _ _ _ proof)) (pow_witness _ _ _ _ _ proof) = (true, ch2) /\
    length (queries _ _ _ _ _ proof) = num_queries /\
    let k := length (commits _ _ _ _ _ proof) + lb in
    Forall2 (fun index q => exists reduced steps, open_input_v index (fst q) = Some reduced /\ zip_steps K Com Pf betas (commits _ _ _ _ _ proof) (snd q) = Some steps /\
       verify_query K adicity root Com Pf mmcs_verify lb index k steps reduced = Some (final_eval _ _ _ _ _ proof))
      (positions sample_bits k num_queries ch2) (queries _ _ _ _ _ proof).
Proof.
  intros K ad root Com Pf mv Ch Wit oc ov s cw sb IP lb nq proof ch ch' op H. unfold verify in H.
  destruct (sample_betas K Com Ch oc s (commits _ _ _ _ _ proof) ch) as [betas ch1]. destruct (Nat.eqb_spec (length (queries _ _ _ _ _ proof)) nq) as [E|]; [|discriminate]. cbn [negb] in H.
  destruct (cw (ov ch1 (final_eval _ _ _ _ _ proof)) (pow_witness _ _ _ _ _ proof)) as [[] ch2] eqn:Ew; [|discriminate].
  exists betas, ch1, ch2. split; [reflexivity|]. split; [exact Ew|]. split; [exact E|]. cbv zeta. subst nq. clear Ew. revert ch2 H. 
  generalize (queries _ _ _ _ _ proof) (commits _ _ _ _ _ proof) (final_eval _ _ _ _ _ proof). clear. intros qs cs final. generalize (length cs + lb). intros k.
  induction qs as [|[inp os] qs IH]; intros ch2 H; [constructor|]. cbn [length positions verify_queries] in *. destruct (sb k ch2) as [index ch3]. cbn [fst snd].
  destruct (op index inp) as [ro|] eqn:Eo; [|discriminate]. destruct (zip_steps K Com Pf betas cs os) as [steps|] eqn:Ez; [|discriminate].
  destruct (verify_query K ad root Com Pf mv lb index k steps ro) as [f|] eqn:Ev; [|discriminate]. destruct (feqb f final) eqn:Ef; [|discriminate]. apply feqb_eq in Ef. subst f.
  constructor; [|apply IH, H]. exists ro, steps. auto.
Qed.

