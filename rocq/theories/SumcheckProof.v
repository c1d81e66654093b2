(** Proofs about multilinear evaluations: fixing variables, evaluating, the operators. *)
From Coq Require Import ZArith Lia List Bool Arith Ring Field Field_theory.
From Verif Require Import Field BitsModel ParallelizeModel ParallelizeProof SemigroupModel PolySpec PolyModel PolyProof FFTProof2 FFTProof4 SumcheckModel SumcheckSpec.
Import ListNotations.
Open Scope fld_scope.

Section Mle.
  Variable K : fld.
  Add Field Ks1 : (fld_theory K).
  Implicit Types (l x y : list K).

  Lemma weight_cons b (c : K) x : weight b (c :: x) = (if Nat.testbit b 0 then c else 1 - c) * weight (Nat.div2 b) x.
  Proof.
    unfold weight. cbn [length seq map fprod]. f_equal. rewrite <- seq_shift, map_map. reflexivity.
  Qed.
  Lemma weight_even b (c : K) x : weight (2 * b) (c :: x) = (1 - c) * weight b x.
  Proof. rewrite weight_cons, Nat.div2_double, Nat.testbit_even_0. reflexivity. Qed.
  Lemma weight_odd b (c : K) x : weight (2 * b + 1) (c :: x) = c * weight b x.
  Proof. rewrite weight_cons, Nat.add_1_r, Nat.div2_succ_double. rewrite <- Nat.add_1_r, Nat.testbit_odd_0. reflexivity. Qed.

  (** One variable fixed, as a vector of half the size. *)
  Definition fixed l (c : K) m : list K := map (fun b => nth (2 * b) l 0 + c * (nth (2 * b + 1) l 0 - nth (2 * b) l 0)) (seq 0 m).
  Lemma fixed_length l c m : length (fixed l c m) = m. Proof. unfold fixed. rewrite map_length, seq_length. reflexivity. Qed.
  Lemma fixed_nth l c m b : (b < m)%nat -> nth b (fixed l c m) 0 = nth (2 * b) l 0 + c * (nth (2 * b + 1) l 0 - nth (2 * b) l 0).
  Proof.
    intros H. unfold fixed. set (f := fun b => _). rewrite (nth_indep _ 0 (f 0%nat)) by (rewrite map_length, seq_length; exact H).
    rewrite map_nth, seq_nth by exact H. reflexivity.
  Qed.
  Lemma mlx_cons l (c : K) x : mlx l (c :: x) = mlx (fixed l c (Nat.pow 2 (length x))) x.
  Proof.
    unfold mlx. cbn [length]. rewrite Nat.pow_succ_r', fsum_even_odd, <- fsum_map_add. apply fsum_map_ext. intros b Hb. apply in_seq in Hb.
    rewrite fixed_nth by lia. rewrite weight_even, weight_odd. ring.
  Qed.
  Lemma mlx_nil_point l : mlx l [] = nth 0 l 0. Proof. unfold mlx, weight. cbn. ring. Qed.
  Lemma mlx_empty x : mlx [] x = 0.
  Proof. unfold mlx. apply fsum_map_zero. intros b _. destruct b; cbn [nth]; ring. Qed.

  (** RunFixVariables computes [fixed]. *)
  Lemma set_nth_nth (l : list K) b v i : (b < length l)%nat -> nth i (set_nth b v l) 0 = if Nat.eqb i b then v else nth i l 0.
  Proof.
    intros H. destruct (Nat.eqb_spec i b) as [->|N].
    - destruct (nth_error l b) eqn:E; [|apply nth_error_None in E; lia]. apply nth_error_nth. eapply set_nth_same. exact E.
    - destruct (nth_error l i) eqn:E.
      + rewrite (nth_error_nth _ _ _ E). apply nth_error_nth. rewrite set_nth_other; assumption.
      + apply nth_error_None in E. rewrite !nth_overflow; [reflexivity|exact E|rewrite set_nth_length; exact E].
  Qed.
  Lemma fix_pass_spec (r : K) : forall m b l, (2 * (b + m) <= length l)%nat -> exists l', fix_pass r b m l = Some l' /\ length l' = length l /\
    forall i, nth i l' 0 = if Nat.leb b i && Nat.ltb i (b + m) then nth (2 * i) l 0 + r * (nth (2 * i + 1) l 0 - nth (2 * i) l 0) else nth i l 0.
  Proof.
    induction m as [|m IH]; intros b l H.
    - exists l. split; [reflexivity|]. split; [reflexivity|]. intros i. replace (Nat.leb b i && Nat.ltb i (b + 0)) with false; [reflexivity|].
      destruct (Nat.leb_spec b i); destruct (Nat.ltb_spec i (b + 0)); cbn [andb]; try reflexivity; lia.
    - cbn [fix_pass]. rewrite (nth_error_nth' l 0) by lia. rewrite (nth_error_nth' l 0) by lia.
      set (v := _ + r * _). destruct (IH (S b) (set_nth b v l)) as (l' & E & L & N). { rewrite set_nth_length. lia. }
      exists l'. split; [exact E|]. split; [rewrite L; apply set_nth_length|]. intros i. rewrite N.
      rewrite !set_nth_nth by lia.
      destruct (Nat.leb_spec (S b) i); destruct (Nat.ltb_spec i (S b + m)); destruct (Nat.leb_spec b i); destruct (Nat.ltb_spec i (b + S m)); cbn [andb]; try lia;
        repeat (match goal with |- context [Nat.eqb ?p ?q] => destruct (Nat.eqb_spec p q) end; try lia); try reflexivity.
      subst i. reflexivity.
  Qed.
  Lemma fixed_ext l l' c m : (forall i, (i < 2 * m)%nat -> nth i l 0 = nth i l' 0) -> fixed l c m = fixed l' c m.
  Proof. intros H. unfold fixed. apply map_ext_in. intros b Hb. apply in_seq in Hb. rewrite !H by lia. reflexivity. Qed.
  Lemma mlx_ext l l' x : (forall i, (i < Nat.pow 2 (length x))%nat -> nth i l 0 = nth i l' 0) -> mlx l x = mlx l' x.
  Proof. intros H. unfold mlx. apply fsum_map_ext. intros b Hb. apply in_seq in Hb. rewrite H by lia. reflexivity. Qed.
  Lemma fix_loop_spec : forall point n l, (length point <= n)%nat -> (Nat.pow 2 n <= length l)%nat -> exists l', fix_loop n point l = Some l' /\ length l' = length l /\
    forall y, length y = (n - length point)%nat -> mlx l' y = mlx l (point ++ y).
  Proof.
    induction point as [|r point IH]; intros n l Hk Hl; cbn [fix_loop].
    - exists l. repeat split; reflexivity.
    - cbn [length] in Hk. destruct n as [|n]; [lia|]. replace (S n - 1)%nat with n by lia. rewrite Nat.pow_succ_r' in Hl.
      destruct (fix_pass_spec r (Nat.pow 2 n) 0 l ltac:(lia)) as (l1 & E1 & L1 & N1). rewrite E1.
      destruct (IH n l1 ltac:(lia) ltac:(lia)) as (l' & E' & L' & N'). exists l'. split; [exact E'|]. split; [lia|].
      intros y Hy. rewrite N' by (cbn [length] in Hy; lia). cbn [app]. rewrite mlx_cons. apply mlx_ext. intros i Hi.
      rewrite N1. cbn [Nat.leb andb]. cbn [length] in Hy. rewrite app_length in *. replace (length point + length y)%nat with n in * by lia.
      rewrite fixed_nth by exact Hi. replace (Nat.ltb i (0 + Nat.pow 2 n)) with true by (symmetry; apply Nat.ltb_lt; lia). reflexivity.
  Qed.
  Lemma degree_pow2 l n : (n < 64)%nat -> length l = Nat.pow 2 n -> mle_degree l = n.
  Proof. intros Hn Hl. unfold mle_degree. rewrite Hl. apply safe_log2_pow2. exact Hn. Qed.
  Lemma run_fix_spec point n l : (n < 64)%nat -> length l = Nat.pow 2 n -> (length point <= n)%nat -> exists l', run_fix point l = Some l' /\
    length l' = Nat.pow 2 (n - length point) /\ forall y, length y = (n - length point)%nat -> mlx l' y = mlx l (point ++ y).
  Proof.
    intros Hn Hl Hk. unfold run_fix. rewrite (degree_pow2 l n Hn Hl). replace (Nat.leb (length point) n) with true by (symmetry; apply Nat.leb_le; exact Hk).
    destruct (fix_loop_spec point n l Hk ltac:(lia)) as (l' & E & L & N). rewrite E. cbn [option_map]. eexists. split; [reflexivity|].
    assert (P : (Nat.pow 2 (n - length point) <= length l')%nat) by (rewrite L, Hl; apply Nat.pow_le_mono_r; lia).
    unfold vec_resize. replace (Nat.pow 2 (n - length point) - length l')%nat with 0%nat by lia. cbn [repeat]. rewrite app_nil_r. split; [apply firstn_length_le; exact P|].
    intros y Hy. rewrite <- N by exact Hy. apply mlx_ext. intros i Hi. rewrite Hy in Hi.
    rewrite <- (firstn_skipn (Nat.pow 2 (n - length point)) l') at 2. rewrite app_nth1; [reflexivity|]. rewrite firstn_length_le by exact P. exact Hi.
  Qed.
  Lemma run_fix_one (r : K) n l : (S n < 64)%nat -> length l = Nat.pow 2 (S n) -> run_fix [r] l = Some (fixed l r (Nat.pow 2 n)).
  Proof.
    intros Hn Hl. unfold run_fix. rewrite (degree_pow2 l (S n) Hn Hl). cbn [length Nat.leb fix_loop]. replace (S n - 1)%nat with n by lia.
    rewrite Nat.pow_succ_r' in Hl. destruct (fix_pass_spec r (Nat.pow 2 n) 0 l ltac:(lia)) as (l1 & E1 & L1 & N1). rewrite E1. cbn [option_map]. f_equal.
    unfold vec_resize. replace (Nat.pow 2 n - length l1)%nat with 0%nat by lia. cbn [repeat]. rewrite app_nil_r.
    apply (nth_ext _ _ 0 0). { rewrite firstn_length_le, fixed_length by lia. reflexivity. }
    intros i Hi. rewrite firstn_length_le in Hi by lia. rewrite fixed_nth by exact Hi.
    transitivity (nth i l1 0). { rewrite <- (firstn_skipn (Nat.pow 2 n) l1) at 2. rewrite app_nth1; [reflexivity|]. rewrite firstn_length_le by lia. exact Hi. }
    rewrite N1. cbn [Nat.leb andb]. replace (Nat.ltb i (0 + Nat.pow 2 n)) with true by (symmetry; apply Nat.ltb_lt; lia). reflexivity.
  Qed.
  Lemma make_ok md n l : (n < 64)%nat -> (n <= md)%nat -> length l = Nat.pow 2 n -> mle_make md l = Some l.
  Proof. intros Hn Hm Hl. unfold mle_make. rewrite (degree_pow2 l n Hn Hl). replace (Nat.leb n md) with true by (symmetry; apply Nat.leb_le; exact Hm). reflexivity. Qed.
  Lemma is_zero_all l : mle_is_zero l = true <-> forall a, In a l -> a = 0.
  Proof.
    destruct l as [|a l]; [split; [intros _ ? []|reflexivity]|]. cbn [mle_is_zero]. rewrite forallb_forall. split; intros H b Hb.
    - apply feqb_eq. apply H. exact Hb.
    - apply feqb_eq. apply H. exact Hb.
  Qed.
  Lemma evaluate_ok md n l x : (n < 64)%nat -> (n <= md)%nat -> length l = Nat.pow 2 n -> length x = n -> mle_evaluate md l x = Some (mlx l x).
  Proof.
    intros Hn Hm Hl Hx. unfold mle_evaluate, fix_variables. rewrite (degree_pow2 l n Hn Hl), Hx, Nat.eqb_refl.
    destruct (run_fix_spec x n l Hn Hl ltac:(lia)) as (l' & E & L & N). rewrite E. rewrite Hx, Nat.sub_diag in L. rewrite (make_ok md 0) by (try lia; exact L).
    specialize (N [] ltac:(cbn; lia)). rewrite app_nil_r, mlx_nil_point in N. destruct l' as [|a [|? ?]]; try discriminate L. cbn [nth] in N.
    destruct (mle_is_zero [a]) eqn:Z0; [|cbn; rewrite N; reflexivity].
    pose proof (proj1 (is_zero_all [a]) Z0 a ltac:(left; reflexivity)). congruence.
  Qed.
  Lemma evaluate_wrong md n l x : (n < 64)%nat -> length l = Nat.pow 2 n -> length x <> n -> mle_evaluate md l x = None.
  Proof. intros Hn Hl Hx. unfold mle_evaluate. rewrite (degree_pow2 l n Hn Hl). apply Nat.eqb_neq in Hx. rewrite Hx. reflexivity. Qed.
  Lemma fix_variables_ok md n l x : (n < 64)%nat -> (n <= md)%nat -> length l = Nat.pow 2 n -> (length x <= n)%nat -> exists l', fix_variables md x l = Some l' /\
    run_fix x l = Some l' /\ length l' = Nat.pow 2 (n - length x) /\ forall y, length y = (n - length x)%nat -> mlx l' y = mlx l (x ++ y).
  Proof.
    intros Hn Hm Hl Hx. destruct (run_fix_spec x n l Hn Hl Hx) as (l' & E & L & N). exists l'. unfold fix_variables. rewrite E.
    split; [apply (make_ok md (n - length x)); [lia|lia|exact L]|]. split; [reflexivity|]. split; assumption.
  Qed.
  Lemma fix_variables_wrong n l x : (n < 64)%nat -> length l = Nat.pow 2 n -> (n < length x)%nat -> run_fix x l = None.
  Proof. intros Hn Hl Hx. unfold run_fix. rewrite (degree_pow2 l n Hn Hl). replace (Nat.leb (length x) n) with false by (symmetry; apply Nat.leb_gt; exact Hx). reflexivity. Qed.

  (** The values at the corners. *)
  Lemma corner_length n b : length (@corner K n b) = n. Proof. unfold corner. rewrite map_length, seq_length. reflexivity. Qed.
  Lemma corner_S n b : @corner K (S n) b = (if Nat.testbit b 0 then 1 else 0) :: corner n (Nat.div2 b).
  Proof.
    unfold corner. cbn [seq map]. f_equal. rewrite <- seq_shift, map_map. reflexivity.
  Qed.
  Lemma mlx_corner : forall n l b, (b < Nat.pow 2 n)%nat -> mlx l (corner n b) = nth b l 0.
  Proof.
    induction n as [|n IH]; intros l b Hb.
    - cbn in Hb. assert (b = 0)%nat by lia. subst b. apply mlx_nil_point.
    - rewrite corner_S, mlx_cons, corner_length. rewrite Nat.pow_succ_r' in Hb. pose proof (Nat.div2_odd b) as D.
      assert (Hd : (Nat.div2 b < Nat.pow 2 n)%nat) by (destruct (Nat.odd b); cbn [Nat.b2n] in D; lia).
      rewrite IH, fixed_nth by exact Hd. rewrite Nat.bit0_odd. destruct (Nat.odd b); cbn [Nat.b2n] in D.
      + replace (nth b l 0) with (nth (2 * Nat.div2 b + 1) l 0) by (rewrite <- D; reflexivity). ring.
      + replace (nth b l 0) with (nth (2 * Nat.div2 b) l 0) by (rewrite Nat.add_0_r in D; rewrite <- D; reflexivity). ring.
  Qed.
  (** Affine in each variable. *)
  Lemma mlx_affine : forall x l (a b t : K) y, mlx l (x ++ (a + t * (b - a)) :: y) = mlx l (x ++ a :: y) + t * (mlx l (x ++ b :: y) - mlx l (x ++ a :: y)).
  Proof.
    induction x as [|c x IH]; intros l a b t y.
    - cbn [app]. unfold mlx. cbn [length]. rewrite Nat.pow_succ_r', !fsum_even_odd, <- !fsum_map_add.
      set (L := seq 0 (Nat.pow 2 (length y))).
      assert (G : forall (z : K), fsum (map (fun i => nth (2 * i) l 0 * weight (2 * i) (z :: y) + nth (2 * i + 1) l 0 * weight (2 * i + 1) (z :: y)) L)
        = fsum (map (fun i => nth (2 * i) l 0 * weight i y) L) + z * fsum (map (fun i => (nth (2 * i + 1) l 0 - nth (2 * i) l 0) * weight i y) L)).
      { intros z. rewrite <- fsum_map_mul, <- fsum_map_add. apply fsum_map_ext. intros i _. rewrite weight_even, weight_odd. ring. }
      rewrite !G. ring.
    - cbn [app]. rewrite !mlx_cons, !app_length. cbn [length]. apply IH.
  Qed.
End Mle.
