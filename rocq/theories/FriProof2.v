(** FRI: the commit phase against the queries. *)
From Coq Require Import ZArith List Bool Lia Arith Permutation Sorting.Sorted Ring Field Field_theory.
From Verif Require Import Field BitsModel BitsSpec SemigroupModel PolySpec PolyProof3 PolyProof
  FFTModel FFTSpec FFTProof FFTProof2 FFTProof4 FFTProof5 FriModel FriSpec FriProof.
Import ListNotations.
Open Scope nat_scope.

(** What the next step of VerifyQuery does with the reduced openings. *)
Definition consume {K : fld} (log : nat) (fe : K) (ro : list (nat * K)) : K * list (nat * K) :=
  match ro with (rows, v) :: ro' => if rows =? log then (fadd fe v, ro') else (fe, ro) | [] => (fe, ro) end.
Definition remaining {K : fld} (k : nat) (ins : list (list K)) : list (list K) := filter (fun v => length v <=? 2 ^ k) ins.
Definition pow2_lengths {K : fld} (ins : list (list K)) : Prop := Forall (fun v => length v = 2 ^ Nat.log2 (length v)) ins.

Lemma log2_lt_pow a b : a = 2 ^ Nat.log2 a -> a < 2 ^ S b -> a <= 2 ^ b.
Proof.
  intros E H. rewrite E in H. apply Nat.pow_lt_mono_r_iff in H; [|lia]. rewrite E. apply Nat.pow_le_mono_r; lia.
Qed.
Lemma filter_all {A} (P : A -> bool) l : Forall (fun x => P x = true) l -> filter P l = l.
Proof. induction 1; cbn; [reflexivity|]. rewrite H. f_equal. auto. Qed.

Section Vectors.
  Variable K : fld.
  Add Field Kfri2 : (fld_theory K).
  Implicit Types (f v : list K) (ins : list (list K)).

  Lemma add_vectors_length f v : length v = length f -> length (add_vectors f v) = length f.
  Proof. intros H. unfold add_vectors. rewrite map_length, combine_length, H. lia. Qed.
  Lemma add_vectors_nth f v i : length v = length f -> i < length f -> nth i (add_vectors f v) f0 = fadd (nth i f f0) (nth i v f0).
  Proof.
    intros H Hi. unfold add_vectors. rewrite (nth_indep _ f0 ((fun p => fadd (fst p) (snd p)) (f0, f0))).
    - rewrite (map_nth (fun p => fadd (fst p) (snd p))), combine_nth by auto. reflexivity.
    - rewrite map_length, combine_length, H. lia.
  Qed.
  Lemma add_inputs_small ins : forall f, Forall (fun v => length v <> length f) ins -> add_inputs f ins = f.
  Proof.
    induction ins as [|v ins IH]; intros f HF; [reflexivity|]. apply Forall_cons_iff in HF. destruct HF as [H HF].
    cbn [add_inputs]. rewrite (proj2 (Nat.eqb_neq _ _)) by exact H. auto.
  Qed.
  Lemma add_inputs_length ins : forall f, length (add_inputs f ins) = length f.
  Proof.
    induction ins as [|v ins IH]; intros f; [reflexivity|]. cbn [add_inputs]. rewrite IH. destruct (Nat.eqb_spec (length v) (length f)); [|reflexivity].
    apply add_vectors_length. auto.
  Qed.
  Lemma remaining_all k ins : Forall (fun v => length v <= 2 ^ k) ins -> remaining k ins = ins.
  Proof. intros H. apply filter_all. eapply Forall_impl; [|exact H]. intros v Hv. apply Nat.leb_le. exact Hv. Qed.

  Lemma add_inputs_cases ins : forall k f, decreasing ins -> pow2_lengths ins -> length f = 2 ^ k ->
    (exists v, In v ins /\ length v = 2 ^ k /\ add_inputs f ins = add_vectors f v /\ forall k', k = S k' -> remaining k ins = v :: remaining k' ins) \/
    (add_inputs f ins = f /\ Forall (fun v => length v <> 2 ^ k) ins /\ forall k', k = S k' -> remaining k ins = remaining k' ins).
  Proof.
    induction ins as [|v ins IH]; intros k f HD HP Hf.
    - right. split; [reflexivity|]. split; [constructor|]. reflexivity.
    - apply StronglySorted_inv in HD. destruct HD as [HD HS]. apply Forall_cons_iff in HP. destruct HP as [Hv HP].
      assert (Hsmall : length v <= 2 ^ k -> Forall (fun w => length w < 2 ^ k) ins).
      { intros H. eapply Forall_impl; [|exact HS]. cbv beta. intros w Hw. lia. }
      assert (Hrem : forall k', k = S k' -> Forall (fun w => length w < 2 ^ k) ins -> Forall (fun w => length w <= 2 ^ k') ins).
      { intros k' -> H. rewrite Forall_forall in *. intros w Hw. apply log2_lt_pow; auto. }
      destruct (lt_eq_lt_dec (length v) (2 ^ k)) as [[Hlt|Heq]|Hgt].
      + right. specialize (Hsmall ltac:(lia)). split.
        * apply add_inputs_small. constructor; [lia|]. eapply Forall_impl; [|exact Hsmall]. cbv beta. intros; lia.
        * split. { constructor; [lia|]. eapply Forall_impl; [|exact Hsmall]. cbv beta. intros; lia. }
          intros k' ->. assert (Hv' : length v <= 2 ^ k') by (apply log2_lt_pow; auto).
          rewrite !remaining_all; auto; constructor; auto; try lia. eapply Forall_impl; [|exact Hsmall]. cbv beta. intros; lia.
      + left. specialize (Hsmall ltac:(lia)). exists v. split; [left; reflexivity|]. split; [exact Heq|]. split.
        * cbn [add_inputs]. rewrite (proj2 (Nat.eqb_eq _ _)) by lia. apply add_inputs_small. rewrite add_vectors_length by lia. rewrite Hf.
          eapply Forall_impl; [|exact Hsmall]. cbv beta. intros; lia.
        * intros k' ->. rewrite remaining_all.
          2:{ constructor; [lia|]. eapply Forall_impl; [|exact Hsmall]. cbv beta. intros; lia. }
          f_equal. cbn [remaining filter]. rewrite (proj2 (Nat.leb_gt _ _)) by (pose proof (pow2_1 k'); cbn [Nat.pow] in Heq; lia).
          symmetry. apply remaining_all. apply Hrem; auto.
      + destruct (IH k f HD HP Hf) as [(w & H1 & H2 & H3 & H4)|(H3 & H1 & H4)].
        * left. exists w. split; [right; exact H1|]. split; [exact H2|]. split.
          { cbn [add_inputs]. rewrite (proj2 (Nat.eqb_neq _ _)) by lia. exact H3. }
          intros k' ->. assert (Hg' : 2 ^ k' < length v) by (cbn [Nat.pow] in Hgt; lia). cbn [remaining filter]. rewrite !(proj2 (Nat.leb_gt _ _)) by assumption. apply H4. reflexivity.
        * right. split.
          { cbn [add_inputs]. rewrite (proj2 (Nat.eqb_neq _ _)) by lia. exact H3. }
          split; [constructor; [lia|exact H1]|].
          intros k' ->. assert (Hg' : 2 ^ k' < length v) by (cbn [Nat.pow] in Hgt; lia). cbn [remaining filter]. rewrite !(proj2 (Nat.leb_gt _ _)) by assumption. apply H4. reflexivity.
  Qed.

  Lemma openings_half k' index ins : pow2_lengths ins -> Forall (fun v => length v <= 2 ^ k') ins ->
    openings_at (S k') index ins = openings_at k' (Nat.div index 2) ins.
  Proof.
    intros HP HL. unfold openings_at. apply map_ext_in. intros v Hv. f_equal. f_equal.
    unfold pow2_lengths in HP. rewrite Forall_forall in HP, HL. specialize (HP v Hv). specialize (HL v Hv). cbv beta in HP, HL.
    assert (Nat.log2 (length v) <= k'). { rewrite HP in HL. apply Nat.pow_le_mono_r_iff in HL; lia. }
    replace (S k' - Nat.log2 (length v)) with (S (k' - Nat.log2 (length v))) by lia. cbn [Nat.pow]. rewrite Nat.div_div by (try apply pow2_nz; lia). reflexivity.
  Qed.
  Lemma remaining_le k ins : Forall (fun v => length v <= 2 ^ k) (remaining k ins).
  Proof. unfold remaining. apply Forall_forall. intros v Hv. apply filter_In in Hv. apply Nat.leb_le, Hv. Qed.
  Lemma remaining_pow2 k ins : pow2_lengths ins -> pow2_lengths (remaining k ins).
  Proof. unfold pow2_lengths, remaining. rewrite !Forall_forall. intros H v Hv. apply filter_In in Hv. apply H, Hv. Qed.

  (** One step of the verifier's bookkeeping is one step of the prover's. *)
  Lemma consume_step ins k' f index fe : decreasing ins -> pow2_lengths ins -> length f = 2 ^ S k' -> index < 2 ^ S k' -> nth index f f0 = fe ->
    consume (S k') fe (openings_at (S k') index (remaining (S k') ins)) =
      (nth index (add_inputs f ins) f0, openings_at k' (Nat.div index 2) (remaining k' ins)).
  Proof.
    intros HD HP Hf Hi Hfe. destruct (add_inputs_cases ins (S k') f HD HP Hf) as [(v & H1 & H2 & H3 & H4)|(H3 & H1 & H4)].
    - rewrite (H4 k' eq_refl), H3. unfold openings_at at 1. cbn [map consume]. rewrite H2, Nat.log2_pow2 by lia.
      rewrite Nat.eqb_refl, Nat.sub_diag. cbn [Nat.pow]. rewrite Nat.div_1_r. f_equal.
      + rewrite add_vectors_nth by lia. rewrite Hfe. reflexivity.
      + apply (openings_half k' index); [apply remaining_pow2; auto|apply remaining_le].
    - rewrite (H4 k' eq_refl), H3. rewrite openings_half by (try apply remaining_pow2; auto; apply remaining_le).
      pose proof (remaining_le k' ins) as HL. destruct (remaining k' ins) as [|v r]; [cbn; rewrite Hfe; reflexivity|].
      apply Forall_cons_iff in HL. destruct HL as [HL _]. cbn [openings_at map consume].
      rewrite (proj2 (Nat.eqb_neq _ _)); [rewrite Hfe; reflexivity|].
      pose proof (Nat.log2_le_mono _ _ HL) as HH. rewrite Nat.log2_pow2 in HH by lia. lia.
  Qed.
End Vectors.

Section Low.
  Variable K : fld.
  Add Field Kfri3 : (fld_theory K).
  Open Scope fld_scope.
  Variables (adicity : nat) (root : K).
  Hypothesis Had : (adicity < 63)%nat.
  Hypothesis Hroot : primitive_root root (2 ^ adicity).
  Hypothesis H2 : (1 + 1 : K) <> 0.
  Variable lb : nat.
  Notation low := (low_degree adicity root lb).

  Lemma low_length k v : low k v -> length v = (2 ^ k)%nat.
  Proof. intros (_ & c & _ & H & _). exact H. Qed.
  Lemma low_zero k : (lb <= k)%nat -> low k (repeat 0 (2 ^ k)).
  Proof.
    intros H. split; [exact H|]. exists []. split; [cbn; lia|]. split; [apply repeat_length|].
    intros r Hr. rewrite nth_repeat, eval_nil. reflexivity.
  Qed.
  Lemma low_add k f v : low k f -> low k v -> low k (add_vectors f v).
  Proof.
    intros Hf Hv. pose proof (low_length _ _ Hf) as L1. pose proof (low_length _ _ Hv) as L2.
    destruct Hf as (Hk & a & Ha & _ & Ea). destruct Hv as (_ & b & Hb & _ & Eb). split; [exact Hk|].
    exists (map (fun i => coeff a i + coeff b i) (seq 0 (Nat.max (length a) (length b)))).
    split; [rewrite map_length, seq_length; lia|]. split; [rewrite add_vectors_length; lia|].
    intros r Hr. rewrite add_vectors_nth by lia. rewrite Ea, Eb by auto. symmetry.
    rewrite (eval_linear K a b _ 1 1); [ring|]. intros i. rewrite coeff_map_seq. destruct (Nat.ltb_spec i (Nat.max (length a) (length b))); [ring|].
    rewrite !coeff_over by lia. ring.
  Qed.
  Lemma low_add_inputs k f ins : decreasing ins -> pow2_lengths ins -> (forall v, In v ins -> low (Nat.log2 (length v)) v) ->
    low k f -> low k (add_inputs f ins).
  Proof.
    intros HD HP HI Hf. destruct (add_inputs_cases K ins k f HD HP (low_length _ _ Hf)) as [(v & H1 & Hl & H3 & _)|(H3 & _)]; rewrite H3; auto.
    apply low_add; auto. specialize (HI v H1). rewrite Hl, Nat.log2_pow2 in HI by lia. exact HI.
  Qed.
  Lemma low_const v : low lb v -> exists z, forall i, (i < 2 ^ lb)%nat -> nth_error v i = Some z.
  Proof.
    intros Hv. pose proof (low_length _ _ Hv) as L. destruct Hv as (_ & c & Hc & _ & E). rewrite Nat.sub_diag in Hc. cbn in Hc.
    exists (coeff c 0). intros i Hi. rewrite (nth_error_nth' _ 0) by lia. f_equal. rewrite E by auto.
    destruct c as [|a [|b c]]; cbn in Hc; try lia; [reflexivity|]. rewrite eval_cons, eval_nil. unfold coeff. cbn [nth]. ring.
  Qed.
  Lemma low_fold threads beta k v : (0 < threads < 2 ^ 63)%Z -> (0 < lb)%nat -> (lb <= k)%nat -> (S k <= adicity)%nat -> low (S k) v ->
    exists m f, leaves v = Some m /\ length m = (2 ^ k)%nat /\ Forall (fun row => length row = 2%nat) m /\
      (forall i, (i < 2 ^ k)%nat -> nth i m [] = [nth (2 * i) v 0; nth (2 * i + 1) v 0]) /\
      fold_matrix adicity root threads beta m = Some f /\ low k f.
  Proof.
    intros Ht H0 Hlk Hk (_ & c & Hc & E).
    destruct (fold_evaluations K adicity root Had Hroot H2 threads beta k c v Ht ltac:(lia) Hk E) as (m & f & E1 & E2 & E3 & E4 & E5 & E6).
    exists m, f. do 5 (split; [assumption|]). split; [exact Hlk|]. exists (fold_poly beta c). split; [|exact E6].
    pose proof (fold_poly_length K adicity Had beta (length c) c (le_n _)). replace (S k - lb)%nat with (S (k - lb)) in Hc by lia. cbn [Nat.pow] in Hc. lia.
  Qed.
End Low.
