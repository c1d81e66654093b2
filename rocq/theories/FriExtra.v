(** The statements of FriProps.v, and a toy commitment scheme for its examples. *)
From Coq Require Import ZArith List Bool Lia Arith Permutation Sorting.Sorted.
From Verif Require Import Field Zp BitsModel BitsSpec PolySpec FFTModel FFTSpec FFTProof FriModel FriSpec FriProof FriProof2 FriProof3.
Import ListNotations.
Open Scope nat_scope.

Lemma fri_binding (K : fld) (adicity : nat) (root : K) (threads : Z) (Com Pf : Type)
  (mmcs_verify : Com -> nat * nat -> nat -> list (list K) -> Pf -> bool) (lb k : nat) (ins : list (list K)) (betas : list K) (cs : list Com) mats (final : K) :
  adicity < 63 -> primitive_root root (2 ^ adicity) -> (0 < threads < 2 ^ 63)%Z -> 0 < lb ->
  k <= adicity -> k = lb + length cs -> length betas = length cs ->
  decreasing ins -> (forall v, In v ins -> exists j, lb < j <= k /\ length v = 2 ^ j) ->
  all_bind mmcs_verify cs k mats ->
  (forall index, index < 2 ^ k -> exists openings steps,
     zip_steps K Com Pf betas cs openings = Some steps /\
     verify_query K adicity root Com Pf mmcs_verify lb index k steps (openings_at k index ins) = Some final) ->
  honest_folding adicity root threads ins final k (repeat f0 (2 ^ k)) betas mats.
Proof.
  intros Had Hroot Ht Hlb Hk Ek Hlen HD HI HB HQ.
  assert (HP : pow2_lengths ins).
  { apply Forall_forall. intros v Hv. destruct (HI v Hv) as (j & _ & ->). rewrite Nat.log2_pow2 by lia. reflexivity. }
  apply (queries_bind K adicity root threads Had Hroot Ht Com Pf mmcs_verify lb Hlb ins final cs); auto.
  - apply Forall_forall. intros v Hv. destruct (HI v Hv) as (j & Hj & ->). apply Nat.pow_lt_mono_r; lia.
  - apply repeat_length.
  - intros index Hi. destruct (HQ index Hi) as (op & steps & Z & V). rewrite remaining_all.
    + unfold verify_query in V. rewrite nth_repeat. destruct (verify_steps K adicity root Com Pf mmcs_verify steps k index f0 (openings_at k index ins)) as [[[i' f'] [|]]|] eqn:Ev; try discriminate.
      destruct (i' <? 2 ^ lb); [|discriminate]. injection V as <-. exists op, steps, i'. split; [exact Z|exact Ev].
    + apply Forall_forall. intros v Hv. destruct (HI v Hv) as (j & Hj & ->). apply Nat.pow_le_mono_r; lia.
Qed.

Lemma single_row : forall (K : fld) (adicity : nat) (root : K) (threads : Z) (Com Data Pf : Type)
    mmcs_commit mmcs_matrix mmcs_open mmcs_verify (Ch Wit : Type) observe_commitment observe_value sample grind check_witness sample_bits
    (InProof : Type) (log_blowup num_queries : nat) (inputs : list (list K)) (k : nat) open_input open_input_v (ch : Ch),
  adicity < 63 -> primitive_root root (2 ^ adicity) -> ((1 + 1 : K) <> 0)%fld -> (0 < threads < 2 ^ 63)%Z -> 0 < log_blowup -> k <= adicity ->
  complete_mmcs mmcs_commit mmcs_matrix mmcs_open mmcs_verify ->
  (exists first rest, inputs = first :: rest /\ length first = 2 ^ k) -> decreasing inputs ->
  (forall v, In v inputs -> exists j, low_degree adicity root log_blowup j v) ->
  (forall n c, fst (sample_bits n c) < 2 ^ n) -> 0 < num_queries ->
  (exists v, In v inputs /\ length v = 2 ^ log_blowup) ->
  (forall index inp ro, open_input_v index inp = Some ro -> ro = openings_at k index inputs) ->
  (exists proof ch', prove K adicity root threads Com Data Pf mmcs_commit mmcs_matrix mmcs_open Ch Wit observe_commitment observe_value sample grind sample_bits InProof log_blowup num_queries inputs ch open_input = Some (proof, ch')) /\
  forall proof ch', verify K adicity root Com Pf mmcs_verify Ch Wit observe_commitment observe_value sample check_witness sample_bits InProof log_blowup num_queries proof ch open_input_v <> Some (true, ch').
Proof.
  intros K ad root th Com Data Pf mc mm mo mv Ch Wit oc ov s g cw sb IP lb nq ins k op opv ch H1 H2 H3 H4 H5 H6 H7 H8 H9 H10 H12 H13 (v & Hv & Hl) H14. split.
  - destruct (prove_succeeds K ad root th H1 H2 H3 H4 Com Data Pf mc mm mo mv Ch Wit oc ov s g cw sb IP lb nq H5 H7 ins k H8 H9 H10 H6 op H12 ch) as (p & c & E & _). exists p, c. exact E.
  - intros p c. apply small_input_never_verifies; [|exact H13]. intros index inp ro E. rewrite (H14 _ _ _ E).
    exists (nth (Nat.div index (2 ^ (k - lb))) v f0). unfold openings_at. apply in_map_iff. exists v. split; [|exact Hv].
    rewrite Hl, Nat.log2_pow2 by lia. reflexivity.
Qed.

Definition codeword {K : fld} (adicity : nat) (root : K) (c : list K) (k : nat) : list K :=
  map (fun r => eval c (fpow (generator adicity root k) (Z.to_nat (rev_bits k (Z.of_nat r))))) (seq 0 (2 ^ k)).
Lemma codeword_low {K : fld} adicity (root : K) lb c k : lb <= k -> length c <= 2 ^ (k - lb) -> low_degree adicity root lb k (codeword adicity root c k).
Proof.
  intros H1 H2. split; [exact H1|]. exists c. split; [exact H2|]. unfold codeword. split; [rewrite map_length, seq_length; reflexivity|].
  intros r Hr. erewrite nth_error_nth; [reflexivity|]. rewrite nth_error_map, (nth_error_nth' _ 0) by (rewrite seq_length; exact Hr). rewrite seq_nth by exact Hr. reflexivity.
Qed.

(** Commit to a matrix by the matrix itself. *)
Section Toy.
  Variable K : fld.
  Fixpoint row_eqb (a b : list K) : bool :=
    match a, b with [], [] => true | x :: a', y :: b' => feqb x y && row_eqb a' b' | _, _ => false end.
  Lemma row_eqb_spec a : forall b, row_eqb a b = true <-> a = b.
  Proof.
    induction a as [|x a IH]; intros [|y b]; cbn [row_eqb]; try (split; [discriminate|discriminate]); [tauto|].
    rewrite andb_true_iff, IH. split; [intros [H ->]; apply feqb_eq in H; congruence|]. intros E. injection E as -> ->. split; [apply feqb_eq|]; reflexivity.
  Qed.
  Definition toy_commit (m : list (list K)) : option (list (list K) * list (list K)) := Some (m, m).
  Definition toy_matrix (d : list (list K)) := d.
  Definition toy_open (i : nat) (d : list (list K)) : option (list (list K) * unit) := Some ([nth i d []], tt).
  Definition toy_verify (c : list (list K)) (dims : nat * nat) (i : nat) (rows : list (list K)) (pf : unit) : bool :=
    match rows with [r] => row_eqb r (nth i c []) | _ => false end.
  Lemma toy_complete : complete_mmcs toy_commit toy_matrix toy_open toy_verify.
  Proof.
    intros k m Hm HF. exists m, m. split; [reflexivity|]. split; [reflexivity|]. intros i Hi. exists tt. split; [reflexivity|].
    cbn. apply row_eqb_spec. reflexivity.
  Qed.
  Lemma toy_binds k m : length m = 2 ^ k -> Forall (fun row => length row = 2) m -> binds toy_verify m k m.
  Proof.
    intros Hm HF. split; [exact Hm|]. split; [exact HF|]. intros i rows pf Hi H. cbn in H.
    destruct rows as [|r [|]]; try discriminate. apply row_eqb_spec in H. congruence.
  Qed.
End Toy.
