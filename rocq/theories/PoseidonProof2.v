(** The sparse factorisation and the moved round constants. *)
From Coq Require Import ZArith List Bool Arith Lia Ring Field Field_theory.
From Verif Require Import Field BigIntModel SemigroupModel PolyModel PoseidonModel PoseidonSpec PoseidonProof.
Import ListNotations.

Lemma ofold_app {A B} (f : A -> B -> option A) l l' a :
  ofold f (l ++ l') a = match ofold f l a with None => None | Some a => ofold f l' a end.
Proof. revert a. induction l as [|x l IH]; intros a; cbn [ofold app]; [reflexivity|]. destruct (f a x); [apply IH|reflexivity]. Qed.
Lemma ofold_map {A B C} (f : A -> C -> option A) (g : B -> C) l a :
  ofold f (map g l) a = ofold (fun a b => f a (g b)) l a.
Proof. revert a. induction l as [|x l IH]; intros a; cbn [ofold map]; [reflexivity|]. destruct (f a (g x)); [apply IH|reflexivity]. Qed.
Lemma ofold_ext {A B} (f g : A -> B -> option A) l a :
  (forall a b, In b l -> f a b = g a b) -> ofold f l a = ofold g l a.
Proof.
  revert a. induction l as [|x l IH]; intros a H; cbn [ofold]; [reflexivity|].
  rewrite (H a x) by (left; reflexivity). destruct (g a x); [apply IH; intros; apply H; right; assumption|reflexivity].
Qed.
Lemma seq_shift_map s k : seq s k = map (fun j => s + j)%nat (seq 0 k).
Proof.
  revert s. induction k as [|k IH]; intros s; cbn [seq map]; [reflexivity|].
  rewrite Nat.add_0_r. f_equal. rewrite (IH (S s)), (IH 1%nat), map_map. apply map_ext. intros j. lia.
Qed.

Section Sparse.
  Variable K : fld.
  Add Field Kps2 : (fld_theory K).
  Open Scope fld_scope.
  Variables (inv : nat -> pmat K -> pmat K) (n' : nat) (alpha : Z) (mds : pmat K).
  Notation n := (S n').
  Hypothesis Hn : (1 <= n')%nat.
  Hypothesis Hinv : inverts inv n'.
  Let mt : pmat K := mat_transpose mds.

  (** a matrix [[1, 0], [0, a]] *)
  Definition lift1 (a : pmat K) : pmat K := fun i j => match i, j with S i', S j' => a i' j' | _, _ => mat_id i j end.
  Lemma sum_S (f : nat -> K) k : fsum (map f (seq 0 (S k))) = f 0%nat + fsum (map (fun i => f (S i)) (seq 0 k)).
  Proof. cbn [seq map fsum]. rewrite <- seq_shift, map_map. reflexivity. Qed.
  Lemma mv_S k (m : pmat K) v i : mv (S k) m v i = m i 0%nat * v 0%nat + fsum (map (fun j => m i (S j) * v (S j)) (seq 0 k)).
  Proof. unfold mv. apply sum_S. Qed.

  Lemma nonsingular_mul k (a b : pmat K) : nonsingular k a -> nonsingular k b -> nonsingular k (mat_mul k a b).
  Proof.
    intros Ha Hb v H. apply Hb. apply Ha. intros i Hi. rewrite <- mv_mul. apply H. exact Hi.
  Qed.
  Lemma nonsingular_ext k (a b : pmat K) : (forall i j, (i < k)%nat -> (j < k)%nat -> a i j = b i j) -> nonsingular k a -> nonsingular k b.
  Proof.
    intros E H v Hv. apply H. intros i Hi. rewrite <- (Hv i Hi). apply mv_ext; [|intros j _; reflexivity].
    intros j Hj. apply E; assumption.
  Qed.
  Lemma nonsingular_transpose k (a w : pmat K) : inverse_of k a w -> nonsingular k (mat_transpose a).
  Proof.
    intros H v Hv i Hi.
    assert (HT : inverse_of k (mat_transpose a) (mat_transpose w)).
    { intros x y Hx Hy. destruct (H y x Hy Hx) as [H1 H2]. unfold mat_transpose. rewrite (Nat.eqb_sym x y). split.
      - rewrite <- H2. apply fsum_map_ext. intros j _. ring.
      - rewrite <- H1. apply fsum_map_ext. intros j _. ring. }
    rewrite <- (inverse_l K k (mat_transpose a) (mat_transpose w) v HT i Hi).
    rewrite (mv_ext K k _ (mat_transpose w) _ (fun _ => 0)); [|intros; reflexivity|intros j Hj; apply Hv; exact Hj].
    unfold mv. apply fsum_map_zero. intros j _. ring.
  Qed.
  Lemma inverse_nonsingular k (a w : pmat K) : inverse_of k a w -> nonsingular k a.
  Proof.
    intros H v Hv i Hi. rewrite <- (inverse_l K k a w v H i Hi).
    rewrite (mv_ext K k _ w _ (fun _ => 0)); [|intros; reflexivity|intros j Hj; apply Hv; exact Hj].
    unfold mv. apply fsum_map_zero. intros j _. ring.
  Qed.

  (** the block of MT * lift1 a *)
  Lemma block_mul (a : pmat K) i j : block11 (mat_mul n mt (lift1 a)) i j = mat_mul n' (block11 mt) a i j.
  Proof.
    unfold block11. rewrite !mat_mul_entry, sum_S. unfold lift1 at 1. unfold mat_id. cbn [Nat.eqb].
    rewrite <- (fsum_map_ext K (fun k => mt (S i) (S k) * a k j)); [ring|]. intros k _. reflexivity.
  Qed.

  (** one factorisation: sparse * lift1^T = acc^T *)
  Lemma factorize_ok (acc : pmat K) : nonsingular n' (block11 acc) ->
    exists s, factorize inv n acc = Some (lift1 (block11 acc), s) /\
      forall v, veq K n (sparse_apply n s (mv n (mat_transpose (lift1 (block11 acc))) v)) (mv n (mat_transpose acc) v).
  Proof.
    intros HN. unfold factorize. cbv zeta.
    set (w := mul_mat_vec (n - 1) (inv (n - 1)%nat (block11 acc)) (fun i => acc (S i) 0%nat)).
    set (mpp := fun i j => match i with O => acc 0%nat j | S i' => match j with O => w i' | S _ => mat_id i j end end).
    unfold from_mds_matrix.
    assert (E : (Nat.ltb 1 n && forallb (fun i => forallb (fun j => feqb (block11 (mat_transpose mpp) i j) (mat_id i j)) (seq 0 (n - 1))) (seq 0 (n - 1)))%bool = true).
    { apply andb_true_intro. split; [apply Nat.ltb_lt; lia|]. apply forallb_forall. intros i _. apply forallb_forall. intros j _.
      apply feqb_eq. unfold block11, mat_transpose, mpp, mat_id. cbn [Nat.eqb]. rewrite (Nat.eqb_sym j i). reflexivity. }
    rewrite E. eexists. split; [reflexivity|]. intros v i Hi. unfold sparse_apply. cbn [sp_row sp_col_hat].
    set (u := mv n (mat_transpose (lift1 (block11 acc))) v).
    assert (U0 : u 0%nat = v 0%nat).
    { unfold u. rewrite mv_S. unfold mat_transpose, lift1, mat_id. cbn [Nat.eqb].
      rewrite fsum_map_zero by (intros j _; ring). ring. }
    assert (US : forall j, u (S j) = fsum (map (fun k => acc (S k) (S j) * v (S k)) (seq 0 n'))).
    { intros j. unfold u. rewrite mv_S. unfold mat_transpose, lift1, mat_id, block11. cbn [Nat.eqb].
      match goal with |- 0 * _ + ?x = ?y => replace x with y by reflexivity end. ring. }
    destruct i as [|i].
    - rewrite (fold_sum K (fun i => mat_transpose mpp 0%nat i * u i)). rewrite sum_S.
      unfold mat_transpose at 1. unfold mpp at 1. rewrite mv_S. unfold mat_transpose at 2.
      assert (E2 : fsum (map (fun i => mat_transpose mpp 0%nat (S i) * u (S i)) (seq 0 n')) =
                   fsum (map (fun j => mat_transpose acc 0%nat (S j) * v (S j)) (seq 0 n'))).
      { (* w . (hat^T v') = (hat w) . v' *)
        transitivity (fsum (map (fun i => fsum (map (fun k => w i * (acc (S k) (S i) * v (S k))) (seq 0 n'))) (seq 0 n'))).
        { apply fsum_map_ext. intros i _. rewrite US, fsum_map_mul. reflexivity. }
        rewrite fsum_swap. apply fsum_map_ext. intros k Hk. apply in_seq in Hk.
        transitivity (v (S k) * fsum (map (fun i => acc (S k) (S i) * w i) (seq 0 n'))).
        { rewrite <- fsum_map_mul. apply fsum_map_ext. intros i _. ring. }
        change (fsum (map (fun i => acc (S k) (S i) * w i) (seq 0 n'))) with (mv n' (block11 acc) w k).
        rewrite (mv_ext K n' _ (block11 acc) w (mv n' (inv n' (block11 acc)) (fun i => acc (S i) 0%nat))).
        - rewrite (inverse_r K n' _ _ _ (Hinv _ HN) k) by lia. unfold mat_transpose. ring.
        - intros; reflexivity.
        - intros i _. unfold w. rewrite mul_mat_vec_mv. replace (n - 1)%nat with n' by lia. reflexivity. }
      rewrite E2, U0. ring.
    - rewrite U0, US. unfold mat_transpose at 1. unfold mpp. rewrite mv_S. unfold mat_transpose. ring.
  Qed.

  (** ** the partial rounds *)
  Definition add0 (d : K) (v : pvec K) : pvec K := fun i => if Nat.eqb i 0 then v i + d else v i.
  Lemma lift_commutes (a : pmat K) d v :
    veq K n (add0 d (sbox_part alpha (mv n (mat_transpose (lift1 a)) v))) (mv n (mat_transpose (lift1 a)) (add0 d (sbox_part alpha v))).
  Proof.
    assert (H0 : forall u, mv n (mat_transpose (lift1 a)) u 0%nat = u 0%nat).
    { intros u. rewrite mv_S. unfold mat_transpose, lift1, mat_id. cbn [Nat.eqb].
      rewrite fsum_map_zero by (intros j _; ring). ring. }
    assert (HS : forall u i, mv n (mat_transpose (lift1 a)) u (S i) = fsum (map (fun j => a j i * u (S j)) (seq 0 n'))).
    { intros u i. rewrite mv_S. unfold mat_transpose, lift1, mat_id. cbn [Nat.eqb]. ring. }
    intros i Hi. destruct i as [|i].
    - rewrite H0. unfold add0, sbox_part. cbn [Nat.eqb]. rewrite H0. reflexivity.
    - rewrite HS. unfold add0, sbox_part. cbn [Nat.eqb]. apply HS.
  Qed.
  Lemma sparse_apply_ext s u v : veq K n u v -> veq K n (sparse_apply n s u) (sparse_apply n s v).
  Proof.
    intros H i Hi. unfold sparse_apply. destruct i as [|i].
    - rewrite (fold_sum K (fun i => sp_row s i * u i)), (fold_sum K (fun i => sp_row s i * v i)). f_equal.
      apply fsum_map_ext. intros j Hj. apply in_seq in Hj. rewrite H by lia. reflexivity.
    - rewrite (H (S i)), (H 0%nat) by lia. reflexivity.
  Qed.
  Lemma part_ext d u v : veq K n u v -> veq K n (add0 d (sbox_part alpha u)) (add0 d (sbox_part alpha v)).
  Proof. intros H i Hi. unfold add0, sbox_part. rewrite H by exact Hi. reflexivity. Qed.

  (** the partial rounds before the sparse factorisation *)
  Fixpoint dense (ds : nat -> K) (k : nat) (v : pvec K) : pvec K :=
    match k with O => v | S k => add0 (ds k) (sbox_part alpha (mv n mds (dense ds k v))) end.
  Definition sparse_step (l : list (sparse K)) (ds : nat -> K) (v : pvec K) (j : nat) : option (pvec K) :=
    match nth_error l j with
    | None => None
    | Some s => Some (sparse_apply n s (add0 (ds j) (sbox_part alpha v)))
    end.

  Lemma sparse_loop_ok ds k : forall acc, nonsingular n' (block11 mt) -> nonsingular n' (block11 acc) ->
    exists l accf, sparse_loop inv n mt k acc = Some (l, accf) /\ length l = k /\
      forall v z0, veq K n z0 (mv n (mat_transpose accf) v) ->
        exists z, ofold (sparse_step (rev l) ds) (seq 0 k) z0 = Some z /\ veq K n z (mv n (mat_transpose acc) (dense ds k v)).
  Proof.
    induction k as [|k IH]; intros acc HT HA.
    - exists [], acc. split; [reflexivity|]. split; [reflexivity|]. intros v z0 H. exists z0. split; [reflexivity|exact H].
    - destruct (factorize_ok acc HA) as (s & Ef & Hs). cbn [sparse_loop]. rewrite Ef.
      set (acc1 := mat_mul n mt (lift1 (block11 acc))).
      assert (HA1 : nonsingular n' (block11 acc1)).
      { apply (nonsingular_ext n' (mat_mul n' (block11 mt) (block11 acc))).
        - intros i j _ _. symmetry. apply block_mul.
        - apply nonsingular_mul; assumption. }
      destruct (IH acc1 HT HA1) as (l & accf & El & Ll & H). rewrite El.
      exists (s :: l), accf. split; [reflexivity|]. split; [cbn [length]; lia|]. intros v z0 Hz.
      destruct (H v z0 Hz) as (z & Ez & Hz').
      rewrite seq_S, ofold_app. rewrite (ofold_ext _ (sparse_step (rev l) ds)).
      2:{ intros a b Hb. apply in_seq in Hb. unfold sparse_step. cbn [rev]. rewrite nth_error_app1 by (rewrite rev_length; lia). reflexivity. }
      rewrite Ez. cbn [ofold]. unfold sparse_step at 1. cbn [rev Nat.add]. rewrite nth_error_app2 by (rewrite rev_length; lia).
      rewrite rev_length, Ll, Nat.sub_diag. cbn [nth_error]. eexists. split; [reflexivity|].
      cbn [dense]. intros i Hi.
      (* acc1^T = lift^T * M *)
      assert (H1 : veq K n z (mv n (mat_transpose (lift1 (block11 acc))) (mv n mds (dense ds k v)))).
      { intros j Hj. rewrite Hz' by exact Hj. rewrite <- mv_mul. apply mv_ext; [|intros x _; reflexivity].
        intros x _. unfold mat_transpose at 1. unfold acc1. rewrite !mat_mul_entry. apply fsum_map_ext. intros y _.
        unfold mat_transpose, mt. unfold mat_transpose. ring. }
      rewrite (sparse_apply_ext s _ _ (part_ext (ds k) _ _ H1) i Hi).
      rewrite (sparse_apply_ext s _ _ (lift_commutes (block11 acc) (ds k) _) i Hi). apply Hs. exact Hi.
  Qed.
End Sparse.
