(** Selectors on a coset agree with selectors at its points; concrete cosets. *)
From Coq Require Import ZArith List Bool Lia Arith Permutation Ring Field Field_theory.
From Verif Require Import Field FFTModel FFTSpec FFTProof FFTProof2 FFTProof4 FFTProof5 FFTExtra DomainSpec DomainProof CosetModel CosetProof CosetProof2.
Import ListNotations.
Open Scope nat_scope.

Section Extra.
  Variable K : fld.
  Add Field Kcex : (fld_theory K).
  Open Scope fld_scope.
  Variables (adicity : nat) (root : K).
  Hypothesis Had : (adicity < 62)%nat.
  Hypothesis Hroot : primitive_root root (2 ^ adicity).
  Notation gen k := (generator adicity root k).

  Lemma map_seq_nth (f : nat -> K) n i : (i < n)%nat -> nth i (map f (seq 0 n)) 0 = f i.
  Proof using Type. clear. intros H. apply nth_error_nth. apply (tab_nth f). exact H. Qed.

  Lemma selectors_agree threads d coset k h : (0 < threads < 2 ^ 62)%Z -> (k <= adicity)%nat -> radix2_domain adicity root k 1 d -> radix2_domain adicity root k h coset ->
    h ^ (2 ^ k) <> 1 ->
    exists s, selectors_on threads d coset = Some s /\
      length (s_first s) = (2 ^ k)%nat /\ length (s_last s) = (2 ^ k)%nat /\ length (s_transition s) = (2 ^ k)%nat /\ length (s_inv_zeroifier s) = (2 ^ k)%nat /\
      forall i, (i < 2 ^ k)%nat ->
        selectors_at d (nth i (coset_points h (gen k) (2 ^ k)) 0) =
        Some {| s_first := nth i (s_first s) 0; s_last := nth i (s_last s) 0; s_transition := nth i (s_transition s) 0; s_inv_zeroifier := nth i (s_inv_zeroifier s) 0 |}.
  Proof.
    intros Ht Hk HR1 HR2 Hz. assert (Hh : h <> 1) by (intros ->; apply Hz, fpow_one).
    rewrite (selectors_on_spec K adicity root Had Hroot threads d coset k h Ht Hk HR1 HR2 Hh). eexists. split; [reflexivity|].
    cbn [s_first s_last s_transition s_inv_zeroifier]. do 4 (split; [rewrite map_length, seq_length; reflexivity|]).
    intros i Hi. rewrite coset_nth by exact Hi. rewrite !map_seq_nth by exact Hi.
    destruct (rdom_ok K _ _ _ _ _ Had Hroot Hk HR1) as [HD HG].
    set (x := h * gen k ^ i). assert (Hx : x ^ (2 ^ k) = h ^ (2 ^ k)) by (apply coset_power; apply HG).
    assert (Hout : ~ In x (coset_points 1 (gen k) (2 ^ k))).
    { intros H. apply Hz. rewrite <- Hx. unfold coset_points in H. apply in_map_iff in H. destruct H as (j & <- & _). rewrite coset_power by apply HG. apply fpow_one. }
    destruct (selectors_at_spec K adicity root Had Hroot d k 1 x Hk HR1) as [_ H]. destruct (H Hout) as (E & N1 & N2 & N3). clear H.
    rewrite E. assert (H1 : finv (1 : K) = 1) by (symmetry; apply finv_unique; ring). rewrite H1 in *. replace (x * 1) with x in * by ring. rewrite Hx in *.
    unfold inv0. rewrite (proj2 (feqb_neq K _ _) N1), (proj2 (feqb_neq K _ _) N2), (proj2 (feqb_neq K _ _) N3).
    f_equal. f_equal; ring.
  Qed.
End Extra.
