(** The optimised Poseidon permutation is the permutation of the paper. *)
From Coq Require Import ZArith List Bool Arith Lia Ring Field Field_theory.
From Verif Require Import Field BigIntModel SemigroupModel SemigroupSpec SemigroupProof SemigroupExtra PolyModel PolyProof3.
From Verif Require Import PoseidonModel PoseidonSpec.
Import ListNotations.

Section Linear.
  Variable K : fld.
  Add Field Kps1 : (fld_theory K).
  Open Scope fld_scope.
  Implicit Types (m w a b : pmat K) (u v : pvec K).
  Definition veq (n : nat) (u v : nat -> K) : Prop := forall i, (i < n)%nat -> u i = v i.

  Lemma fold_sum {A} (f : A -> K) l (a : K) : fold_left (fun acc j => acc + f j) l a = a + fsum (map f l).
  Proof. revert a. induction l as [|x l IH]; intros a; cbn [fold_left map fsum]; [ring|]. rewrite IH. ring. Qed.
  Lemma mul_mat_vec_mv n m v i : mul_mat_vec n m v i = mv n m v i.
  Proof. unfold mul_mat_vec, mv. rewrite (fold_sum (fun j => m i j * v j)). ring. Qed.
  Lemma mat_mul_entry n a b i j : mat_mul n a b i j = fsum (map (fun k => a i k * b k j) (seq 0 n)).
  Proof. unfold mat_mul. rewrite (fold_sum (fun k => a i k * b k j)). ring. Qed.
  Lemma mv_ext n m (m' : pmat K) u v i : (forall j, (j < n)%nat -> m i j = m' i j) -> veq n u v -> mv n m u i = mv n m' v i.
  Proof.
    intros Hm H. unfold mv. apply fsum_map_ext. intros j Hj. apply in_seq in Hj. rewrite Hm, H by lia. reflexivity.
  Qed.
  Lemma mv_add n m u v i : mv n m (fun j => u j + v j) i = mv n m u i + mv n m v i.
  Proof.
    unfold mv. rewrite <- fsum_map_add. apply fsum_map_ext. intros j _. ring.
  Qed.
  Lemma mv_sub n m u v i : mv n m (fun j => u j - v j) i = mv n m u i - mv n m v i.
  Proof.
    unfold mv. transitivity (fsum (map (fun j => m i j * u j + (- (1)) * (m i j * v j)) (seq 0 n))).
    - apply fsum_map_ext. intros j _. ring.
    - rewrite fsum_map_add, fsum_map_mul. ring.
  Qed.
  Lemma mv_scale n m c v i : mv n m (fun j => c * v j) i = c * mv n m v i.
  Proof.
    unfold mv. rewrite <- fsum_map_mul. apply fsum_map_ext. intros j _. ring.
  Qed.
  (** a product of matrices acts as the composition *)
  Lemma mv_mul n a b v i : mv n (mat_mul n a b) v i = mv n a (mv n b v) i.
  Proof.
    unfold mv.
    transitivity (fsum (map (fun j => fsum (map (fun k => a i k * (b k j * v j)) (seq 0 n))) (seq 0 n))).
    - apply fsum_map_ext. intros j _. rewrite mat_mul_entry.
      transitivity (v j * fsum (map (fun k => a i k * b k j) (seq 0 n))); [ring|].
      rewrite <- fsum_map_mul. apply fsum_map_ext. intros k _. ring.
    - rewrite fsum_swap. apply fsum_map_ext. intros k _. apply fsum_map_mul.
  Qed.
  Lemma mv_mul' n a b v i : (i < n)%nat ->
    mv n (fun i j => fsum (map (fun k => a i k * b k j) (seq 0 n))) v i = mv n a (mv n b v) i.
  Proof.
    intros Hi. rewrite <- mv_mul. apply mv_ext; [|intros j _; reflexivity]. intros j _. symmetry. apply mat_mul_entry.
  Qed.
  (** the sum with a single non-zero term *)
  Lemma sum_one (f : nat -> K) n i : (i < n)%nat -> (forall j, (j < n)%nat -> j <> i -> f j = 0) ->
    fsum (map f (seq 0 n)) = f i.
  Proof.
    intros Hi H. replace n with (i + (1 + (n - i - 1)))%nat by lia. rewrite seq_app, map_app, fsum_app.
    rewrite (fsum_map_zero K f (seq 0 i)) by (intros j Hj; apply in_seq in Hj; apply H; lia).
    cbn [Nat.add seq map fsum].
    rewrite (fsum_map_zero K f) by (intros j Hj; apply in_seq in Hj; apply H; lia). ring.
  Qed.
  Lemma mv_id n v i : (i < n)%nat -> mv n mat_id v i = v i.
  Proof.
    intros Hi. unfold mv. rewrite (sum_one _ n i Hi).
    - unfold mat_id. rewrite Nat.eqb_refl. ring.
    - intros j Hj Hn. unfold mat_id. destruct (Nat.eqb_spec i j); [congruence|]. ring.
  Qed.
  Lemma inverse_l n m w v : inverse_of n m w -> veq n (mv n w (mv n m v)) v.
  Proof.
    intros H i Hi. rewrite <- mv_mul' by exact Hi. rewrite <- (mv_id n v i Hi). apply mv_ext; [|intros j _; reflexivity].
    intros j Hj. apply (H i j Hi Hj).
  Qed.
  Lemma inverse_r n m w v : inverse_of n m w -> veq n (mv n m (mv n w v)) v.
  Proof.
    intros H i Hi. rewrite <- mv_mul' by exact Hi. rewrite <- (mv_id n v i Hi). apply mv_ext; [|intros j _; reflexivity].
    intros j Hj. apply (H i j Hi Hj).
  Qed.
  Lemma sbox_pow alpha (x : K) : (0 <= alpha < 2 ^ 32)%Z -> sbox alpha x = x ^ (Z.to_nat alpha).
  Proof.
    intros H. unfold sbox. rewrite (const_pow_spec 1 fmul (fun x : K => x * x)).
    - apply times_fpow.
    - apply fld_monoid.
    - reflexivity.
    - exact H.
  Qed.
End Linear.
