(** Packaging for the statements on binary fields. *)
From Coq Require Import NArith List Bool Lia.
From Verif Require Import BinModel BinSpec BinProof BinProof2 BinProof3.
Open Scope N_scope.

Lemma ops_at k a : values k a ->
  b_square k a = b_mul k a a /\ b_alpha k a = b_mul k (generator k) a /\
  match b_inverse k a with
  | None => a = 0
  | Some b => a <> 0 /\ values k b /\ b_mul k a b = 1 /\ (forall c, values k c -> b_mul k a c = 1 -> c = b)
  end.
Proof.
  intros H. split; [apply square_at, H |]. split; [apply alpha_at, H |].
  pose proof (inverse_at k a H) as I. destruct (b_inverse k a) as [b |] eqn:E; [| exact I].
  destruct I as [Vb Eb]. split.
  - intros ->. rewrite inverse_zero in E. discriminate.
  - split; [exact Vb |]. split; [exact Eb |]. intros c Vc Ec. destruct (field_at k) as [V0 V1 Va Vm ac aa az as_ mc ma m1 di inv].
    rewrite <- (m1 c Vc), <- Eb, (mc a b) by assumption. rewrite <- ma, Ec, (mc b 1) by assumption. apply m1, Vb.
Qed.
Lemma no_half k t : values k t -> b_mul k (b_add 1 1) t <> 1.
Proof.
  intros H. change (b_add 1 1) with 0. lift k. rewrite <- (enc_0 k), mul_ok, mul0l, enc_0. discriminate.
Qed.
Lemma two_value k : values (S k) 2.
Proof.
  unfold values. rewrite Nat2N.inj_succ. change 2 with (2 ^ 1) at 1. apply N.pow_lt_mono_r; [lia |].
  rewrite N.pow_succ_r'. pose proof (pow_pos (N.of_nat k)). lia.
Qed.
Lemma two_inv_at k : exists t, b_two_inv (S k) = Some t /\ values (S k) t /\ b_mul (S k) (b_add 1 1) t <> 1.
Proof.
  pose proof (inverse_at (S k) 2 (two_value k)) as I. unfold b_two_inv.
  destruct (b_inverse (S k) 2) as [t |]; [| discriminate].
  exists t. split; [reflexivity |]. split; [apply I |]. apply no_half, I.
Qed.
Lemma split_at k x : values (S k) x ->
  values k (b_lo k x) /\ values k (b_hi k x) /\ b_compose k (b_lo k x) (b_hi k x) = x /\
  x = b_add (b_lo k x) (b_mul (S k) (b_hi k x) (generator (S k))).
Proof.
  intros H. assert (L := lo_bound k x). assert (G := hi_bound k x H).
  split; [exact L |]. split; [exact G |]. split; [apply compose_lo_hi |].
  rewrite halves_at by assumption. symmetry. apply compose_lo_hi.
Qed.
Lemma join_at k lo hi : values k lo -> values k hi ->
  values (S k) (b_compose k lo hi) /\ b_lo k (b_compose k lo hi) = lo /\ b_hi k (b_compose k lo hi) = hi.
Proof. intros. split; [apply compose_bound; assumption |]. split; [apply lo_compose | apply hi_compose]; assumption. Qed.
