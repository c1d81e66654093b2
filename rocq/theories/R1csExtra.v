(** A sort for the examples. *)
From Coq Require Import List Bool Arith Lia Permutation Sorted.
From Verif Require Import Field R1csModel R1csSpec R1csProof.
Import ListNotations.

Section Insertion.
  Context {K : fld}.
  Fixpoint insert (t : term K) (l : lc K) : lc K :=
    match l with [] => [t] | u :: r => if var_ltb (snd u) (snd t) then u :: insert t r else t :: l end.
  Definition insertion_sort (l : lc K) : lc K := fold_right insert [] l.
  Lemma insert_perm t l : Permutation (t :: l) (insert t l).
  Proof.
    induction l as [|u r IH]; cbn [insert]; [reflexivity|]. destruct (var_ltb (snd u) (snd t)); [|reflexivity].
    rewrite perm_swap. apply perm_skip, IH.
  Qed.
  Definition weakly (t u : term K) : Prop := before (snd t) (snd u) \/ snd t = snd u.
  Lemma not_ltb a b : var_ltb a b = false -> before b a \/ b = a.
  Proof.
    intros H. destruct (before_total a b) as [B|[B|B]]; [apply (proj2 (var_ltb_spec a b)) in B; congruence|right; symmetry; exact B|left; exact B].
  Qed.
  Lemma weakly_trans a b c : weakly a b -> weakly b c -> weakly a c.
  Proof.
    unfold weakly. intros [H|H] [G|G]; [left; exact (before_trans _ _ _ H G)|left; rewrite <- G; exact H|left; rewrite H; exact G|right; congruence].
  Qed.
  Lemma insert_sorted t l : StronglySorted weakly l -> StronglySorted weakly (insert t l).
  Proof.
    induction 1 as [|u r S IH F]; cbn [insert]; [constructor; constructor|]. destruct (var_ltb (snd u) (snd t)) eqn:E.
    - constructor; [exact IH|]. apply Forall_forall. intros x Hx. apply (Permutation_in _ (Permutation_sym (insert_perm t r))) in Hx.
      destruct Hx as [<-|Hx]; [left; apply var_ltb_spec; exact E|exact (proj1 (Forall_forall _ _) F x Hx)].
    - apply not_ltb in E. constructor; [constructor; assumption|]. constructor; [exact E|]. apply Forall_forall. intros x Hx.
      exact (weakly_trans t u x E (proj1 (Forall_forall _ _) F x Hx)).
  Qed.
  Lemma insertion_sort_ok : sorts_terms insertion_sort.
  Proof.
    intros l. split; [|induction l as [|t r IH]; [constructor|exact (insert_sorted t _ IH)]].
    induction l as [|t r IH]; [reflexivity|]. cbn [insertion_sort fold_right]. rewrite <- insert_perm. apply perm_skip, IH.
  Qed.
End Insertion.
