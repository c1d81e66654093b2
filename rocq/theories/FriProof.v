(** FRI: folding, completeness and what accepted queries force. *)
From Coq Require Import ZArith List Bool Lia Arith Permutation Sorting.Sorted Ring Field Field_theory.
From Verif Require Import Field BitsModel BitsSpec SemigroupModel SemigroupSpec SemigroupProof SemigroupExtra PolySpec PolyProof3
  FFTModel FFTSpec FFTProof FFTProof2 FFTProof4 FFTProof5 FriModel FriSpec.
Import ListNotations.
Open Scope nat_scope.

Lemma brev_rev k r : Z.to_nat (rev_bits k (Z.of_nat r)) = brev k r.
Proof. rewrite brev_Z, Nat2Z.id. reflexivity. Qed.

Lemma leaves_spec (K : fld) n : forall v : list K, length v = 2 * n ->
  leaves v = Some (map (fun i => [nth (2 * i) v f0; nth (2 * i + 1) v f0]) (seq 0 n)).
Proof.
  induction n as [|n IH]; intros v Hv.
  - destruct v; [reflexivity|discriminate].
  - destruct v as [|a [|b v]]; cbn in Hv; try lia. cbn [leaves]. rewrite IH by lia. cbn [seq map]. f_equal. f_equal.
    rewrite <- seq_shift, map_map. apply map_ext. intros i. f_equal; [|f_equal].
    + replace (2 * S i) with (S (S (2 * i))) by lia. reflexivity.
    + replace (2 * S i + 1) with (S (S (2 * i + 1))) by lia. reflexivity.
Qed.

Section Fold.
  Variable K : fld.
  Add Field Kfri : (fld_theory K).
  Open Scope fld_scope.
  Variables (adicity : nat) (root : K).
  Hypothesis Had : (adicity < 63)%nat.
  Hypothesis Hroot : primitive_root root (2 ^ adicity).
  Hypothesis H2 : (1 + 1 : K) <> 0.

  Lemma gen_primitive k : (k <= adicity)%nat -> primitive_root (generator adicity root k) (2 ^ k).
  Proof. intros Hk. unfold generator. apply primitive_sub. replace (adicity - k + k)%nat with adicity by lia. exact Hroot. Qed.
  Lemma gen_unity k : (k <= adicity)%nat -> unity K k (generator adicity root k).
  Proof. intros. apply primitive_unity, gen_primitive. auto. Qed.
  Lemma gen_neq0 k : (k <= adicity)%nat -> generator adicity root k <> 0.
  Proof. intros. eapply unity_neq0, gen_unity; eauto. Qed.
  Lemma gen_sq k : (S k <= adicity)%nat -> generator adicity root (S k) * generator adicity root (S k) = generator adicity root k.
  Proof.
    intros. unfold generator. rewrite <- fpow_add. f_equal. replace (adicity - k)%nat with (S (adicity - S k)) by lia. cbn [Nat.pow]. lia.
  Qed.
  Lemma gen_half k : (S k <= adicity)%nat -> generator adicity root (S k) ^ (2 ^ k) = - (1).
  Proof. intros H. apply (gen_unity (S k) H). reflexivity. Qed.

  Lemma inverse_root_spec k : (k <= adicity)%nat -> inverse_root adicity root k = Some (finv (generator adicity root k)).
  Proof.
    intros Hk. unfold inverse_root. rewrite <- pow2_Z, root_spec by lia. fold (generator adicity root k).
    rewrite (proj2 (feqb_neq K _ _) (gen_neq0 k Hk)). reflexivity.
  Qed.

  Lemma two_inv_spec : (two_inv : K) + two_inv = 1.
  Proof. unfold two_inv. field. exact H2. Qed.

  Lemma fold_pair_poly beta : forall n (l : list K) x, (length l <= n)%nat -> x <> 0 ->
    fold_pair (finv x * (beta * two_inv)) (eval l x) (eval l (- x)) = eval (fold_poly beta l) (x * x).
  Proof.
    pose proof two_inv_spec as Ht. unfold fold_pair. generalize dependent (two_inv : K). intros t Ht.
    induction n as [|n IH]; intros l x Hl Hx.
    - destruct l; [|cbn in Hl; lia]. cbn [fold_poly]. rewrite !eval_nil. ring.
    - destruct l as [|a [|b r]]; cbn [fold_poly].
      + rewrite !eval_nil. ring.
      + rewrite !eval_cons, !eval_nil. transitivity ((t + t) * a); [ring|rewrite Ht; ring].
      + specialize (IH r x). cbn in Hl. specialize (IH ltac:(lia) Hx). rewrite !eval_cons, <- IH.
        set (h := finv x * (beta * t)). assert (Hh : h * x = beta * t) by (unfold h; field; exact Hx).
        transitivity ((t + t) * a + (h * x) * (b + b) + x * x * ((t + h) * eval r x + (t - h) * eval r (- x))); [ring|].
        rewrite Hh, Ht. transitivity (a + beta * b * (t + t) + x * x * ((t + h) * eval r x + (t - h) * eval r (- x))); [ring|].
        rewrite Ht. ring.
  Qed.
  Lemma fold_poly_length beta : forall n (l : list K), (length l <= n)%nat -> (2 * length (fold_poly beta l) <= length l + 1)%nat.
  Proof.
    induction n as [|n IH]; intros l Hl.
    - destruct l; cbn in *; lia.
    - destruct l as [|a [|b r]]; cbn [fold_poly length]; [lia|lia|]. cbn in Hl. specialize (IH r ltac:(lia)). lia.
  Qed.

  (** FoldRow. *)
  Lemma fold_row_spec beta index k a b r : (0 < k)%nat -> (S k <= adicity)%nat -> (index < 2 ^ k)%nat ->
    fold_row adicity root index k beta (a :: b :: r) = Some (fold_pair (finv (generator adicity root (S k) ^ brev k index) * (beta * two_inv)) a b).
  Proof.
    intros H0 Hk Hi. unfold fold_row. replace (k + 1)%nat with (S k) by lia. rewrite inverse_root_spec by auto. rewrite reverse_bits_len_nat by (auto; lia).
    rewrite do_pow_fpow.
    - rewrite Nat2Z.id, fpow_finv by (apply gen_neq0; auto). reflexivity.
    - split; [lia|]. pose proof (brev_lt k index). assert (2 ^ k <= 2 ^ 62)%nat by (apply Nat.pow_le_mono_r; lia).
      assert (E : (Z.of_nat (2 ^ k) <= 2 ^ 62)%Z) by (rewrite pow2_Z; apply Z.pow_le_mono_r; lia). lia.
  Qed.
  Lemma fold_rows_spec n : forall powers (m : list (list K)), length powers = n -> length m = n -> Forall (fun row => length row = 2%nat) m ->
    fold_rows powers m = Some (map (fun i => fold_pair (nth i powers 0) (nth 0 (nth i m []) 0) (nth 1 (nth i m []) 0)) (seq 0 n)).
  Proof.
    induction n as [|n IH]; intros ps m Hp Hm HF.
    - destruct m; [destruct ps; reflexivity|discriminate].
    - destruct m as [|row m]; [discriminate|]. destruct ps as [|p ps]; [discriminate|]. apply Forall_cons_iff in HF. destruct HF as [Hr HF].
      destruct row as [|a [|b row]]; cbn in Hr; try lia. cbn [fold_rows]. rewrite IH by (cbn in *; auto; lia).
      cbn [seq map]. f_equal. f_equal. rewrite <- seq_shift, map_map. reflexivity.
  Qed.
  (** FoldMatrix. *)
  Lemma fold_matrix_spec threads beta k (m : list (list K)) : (0 < threads < 2 ^ 63)%Z -> (0 < k)%nat -> (S k <= adicity)%nat ->
    length m = (2 ^ k)%nat -> Forall (fun row => length row = 2%nat) m ->
    fold_matrix adicity root threads beta m =
      Some (map (fun i => fold_pair (finv (generator adicity root (S k) ^ brev k i) * (beta * two_inv)) (nth 0 (nth i m []) 0) (nth 1 (nth i m []) 0)) (seq 0 (2 ^ k))).
  Proof.
    intros Ht H0 Hk Hm HF. unfold fold_matrix. rewrite Hm, checked_log2_pow2 by lia. rewrite Nat2Z.id.
    replace (k + 1)%nat with (S k) by lia. rewrite inverse_root_spec by auto.
    destruct (bitrev_parallel_any_order K 1 fmul (fun y => y * y) (fun x => feqb x 1) k (finv (generator adicity root (S k))) (beta * two_inv) threads 0)
      as (ws & ret & E1 & _ & E3 & E4 & E5); auto; try lia.
    { apply fld_monoid. } { apply fld_comm. } { intros x. apply feqb_eq. }
    rewrite E1, (E5 ws) by apply Permutation_refl. rewrite (fold_rows_spec (2 ^ k)) by auto. f_equal. apply map_ext_in. intros i Hi. apply in_seq in Hi.
    f_equal. destruct (E4 (brev k i)) as (j & Ej & En); [apply brev_lt|].
    rewrite reverse_bits_len_nat in Ej by (try apply brev_lt; lia). injection Ej as <-. rewrite Nat2Z.id, brev_invol in En by lia.
    rewrite (nth_error_nth _ _ _ En), times_fpow, fpow_finv by (apply gen_neq0; auto). ring.
  Qed.
  Lemma fold_matrix_rows threads beta k (m : list (list K)) : (0 < threads < 2 ^ 63)%Z -> (0 < k)%nat -> (S k <= adicity)%nat ->
    length m = (2 ^ k)%nat -> Forall (fun row => length row = 2%nat) m ->
    exists f, fold_matrix adicity root threads beta m = Some f /\ length f = (2 ^ k)%nat /\
      forall i, (i < 2 ^ k)%nat -> fold_row adicity root i k beta (nth i m []) = nth_error f i.
  Proof.
    intros Ht H0 Hk Hm HF. rewrite (fold_matrix_spec threads beta k m) by auto. eexists. split; [reflexivity|].
    split; [rewrite map_length, seq_length; reflexivity|]. intros i Hi. rewrite nth_error_map, (nth_error_nth' _ 0%nat) by (rewrite seq_length; auto).
    rewrite seq_nth by auto. cbn [option_map plus].
    assert (Hl : length (nth i m []) = 2%nat). { rewrite Forall_forall in HF. apply HF. apply nth_In. lia. }
    destruct (nth i m []) as [|a [|b r]]; cbn in Hl; try lia. rewrite fold_row_spec by auto. reflexivity.
  Qed.
  (** Folding a codeword folds its polynomial. *)
  Lemma fold_evaluations threads beta k c v : (0 < threads < 2 ^ 63)%Z -> (0 < k)%nat -> (S k <= adicity)%nat ->
    evaluations_of adicity root c (S k) v ->
    exists m f, leaves v = Some m /\ length m = (2 ^ k)%nat /\ Forall (fun row => length row = 2%nat) m /\
      (forall i, (i < 2 ^ k)%nat -> nth i m [] = [nth (2 * i) v 0; nth (2 * i + 1) v 0]) /\
      fold_matrix adicity root threads beta m = Some f /\ evaluations_of adicity root (fold_poly beta c) k f.
  Proof.
    intros Ht H0 Hk [Hl Hv]. pose proof (leaves_spec K (2 ^ k) v ltac:(cbn [Nat.pow] in Hl; lia)) as E.
    set (m := map _ _) in E. exists m.
    assert (Hm : length m = (2 ^ k)%nat) by (unfold m; rewrite map_length, seq_length; reflexivity).
    assert (HF : Forall (fun row => length row = 2%nat) m).
    { unfold m. apply Forall_forall. intros row Hr. apply in_map_iff in Hr. destruct Hr as (i & <- & _). reflexivity. }
    assert (Hn : forall i, (i < 2 ^ k)%nat -> nth i m [] = [nth (2 * i) v 0; nth (2 * i + 1) v 0]).
    { intros i Hi. unfold m. apply nth_error_nth. rewrite nth_error_map, (nth_error_nth' _ 0%nat) by (rewrite seq_length; auto).
      rewrite seq_nth by auto. reflexivity. }
    rewrite (fold_matrix_spec threads beta k m) by auto. eexists. split; [exact E|]. split; [exact Hm|]. split; [exact HF|]. split; [exact Hn|].
    split; [reflexivity|]. split; [rewrite map_length, seq_length; reflexivity|].
    intros r Hr. apply nth_error_nth. rewrite nth_error_map, (nth_error_nth' _ 0%nat) by (rewrite seq_length; auto). rewrite seq_nth by auto.
    cbn [option_map plus]. f_equal. rewrite Hn by auto. cbn [nth].
    assert (Hp : (2 ^ S k = 2 * 2 ^ k)%nat) by reflexivity.
    rewrite !Hv by lia. rewrite !brev_rev, brev_S_even, brev_S_odd.
    set (g := generator adicity root (S k)). rewrite fpow_add. unfold g at 3. rewrite gen_half by auto. fold g.
    set (x := g ^ brev k r). replace (- (1) * x) with (- x) by ring.
    rewrite (fold_pair_poly beta (length c)) by (auto; apply fpow_neq0, gen_neq0; auto). f_equal.
    unfold x, g. rewrite <- (gen_sq k) by lia. rewrite fpow_mul_base. reflexivity.
  Qed.
End Fold.
