(** Proofs about the field Merkle tree model. *)
From Coq Require Import List Arith Bool Lia Permutation Sorting.Sorted.
From Verif Require Import FieldMerkleSpec FieldMerkleModel.
Import ListNotations.
Open Scope nat_scope.

(** ** Sorting *)
Section SortFacts.
  Context {A : Type} (key : A -> nat).
  Lemma insert_perm : forall a l, Permutation (insert_sorted key a l) (a :: l).
  Proof.
    intros a l. induction l as [|b r IH]; [reflexivity|]. cbn [insert_sorted]. destruct (key a <? key b); [|reflexivity].
    rewrite IH. apply perm_swap.
  Qed.
  Lemma sort_perm : forall l, Permutation (stable_sort key l) l.
  Proof. induction l as [|a r IH]; [reflexivity|]. cbn. rewrite insert_perm. now constructor. Qed.
  Lemma insert_sorted_sorted : forall a l, StronglySorted (fun x y => key y <= key x) l -> StronglySorted (fun x y => key y <= key x) (insert_sorted key a l).
  Proof.
    intros a l. induction l as [|b r IH]; intros H; [cbn; repeat constructor|]. cbn [insert_sorted].
    inversion H as [|? ? Hr Hb]; subst. destruct (Nat.ltb_spec (key a) (key b)) as [Hlt|Hge].
    - constructor; [auto|]. apply Forall_forall. intros x Hx. apply (Permutation_in _ (insert_perm a r)) in Hx.
      destruct Hx as [<-|Hx]; [lia|]. rewrite Forall_forall in Hb. auto.
    - constructor; [assumption|]. constructor; [assumption|]. rewrite Forall_forall in Hb |- *. intros x Hx. specialize (Hb x Hx). lia.
  Qed.
  Lemma sort_sorted : forall l, StronglySorted (fun x y => key y <= key x) (stable_sort key l).
  Proof. induction l; cbn; [constructor|apply insert_sorted_sorted; assumption]. Qed.
End SortFacts.
Lemma insert_map : forall {A B} (g : A -> B) (ka : A -> nat) (kb : B -> nat), (forall a, kb (g a) = ka a) ->
  forall a l, insert_sorted kb (g a) (map g l) = map g (insert_sorted ka a l).
Proof. intros A B g ka kb H a l. induction l as [|b r IH]; [reflexivity|]. cbn [insert_sorted map]. rewrite !H. destruct (ka a <? ka b); cbn; [now rewrite IH|reflexivity]. Qed.
Lemma sort_map : forall {A B} (g : A -> B) (ka : A -> nat) (kb : B -> nat), (forall a, kb (g a) = ka a) ->
  forall l, stable_sort kb (map g l) = map g (stable_sort ka l).
Proof. intros A B g ka kb H l. induction l as [|a r IH]; [reflexivity|]. cbn. rewrite IH. now apply insert_map. Qed.

(** ** [map_opt], [count_prefix] *)
Lemma map_opt_total : forall {A B} (f : A -> option B) l, (forall a, In a l -> exists b, f a = Some b) ->
  exists l', map_opt f l = Some l' /\ length l' = length l /\ forall i a, nth_error l i = Some a -> nth_error l' i = f a.
Proof.
  intros A B f l. induction l as [|a r IH]; intros H.
  - exists []. repeat split. intros i a; destruct i; discriminate.
  - destruct (H a (or_introl eq_refl)) as [b Hb]. destruct IH as (l' & E & L & N); [intros x Hx; apply H; now right|].
    exists (b :: l'). cbn. rewrite Hb, E. repeat split; [cbn; lia|]. intros [|i] x; cbn; [intros [= <-]; congruence|apply N].
Qed.
Lemma map_opt_ext : forall {A B} (f g : A -> option B) l, (forall a, In a l -> f a = g a) -> map_opt f l = map_opt g l.
Proof. intros A B f g l. induction l as [|a r IH]; intros H; [reflexivity|]. cbn. rewrite (H a (or_introl eq_refl)), IH; [reflexivity|]. intros x Hx. apply H. now right. Qed.
Lemma map_opt_map : forall {A B C} (g : A -> B) (f : B -> option C) l, map_opt f (map g l) = map_opt (fun a => f (g a)) l.
Proof. intros. induction l as [|a r IH]; [reflexivity|]. cbn. now rewrite IH. Qed.
Lemma map_opt_length : forall {A B} (f : A -> option B) l l', map_opt f l = Some l' -> length l' = length l.
Proof.
  intros A B f l. induction l as [|a r IH]; intros l' H; [injection H as <-; reflexivity|]. cbn in H.
  destruct (f a), (map_opt f r); try discriminate. injection H as <-. cbn. now rewrite (IH l).
Qed.
Lemma map_opt_nth : forall {A B} (f : A -> option B) l l', map_opt f l = Some l' -> forall i a, nth_error l i = Some a -> nth_error l' i = f a.
Proof.
  intros A B f l. induction l as [|a r IH]; intros l' H i x; [destruct i; discriminate|]. cbn in H.
  destruct (f a) eqn:E, (map_opt f r); try discriminate. injection H as <-. destruct i as [|i]; cbn; [intros [= <-]; now rewrite E|]. now apply IH.
Qed.
Lemma map_opt_Some : forall {A B} (f : A -> option B) l l', map_opt f l = Some l' -> forall a, In a l -> exists b, f a = Some b.
Proof.
  intros A B f l. induction l as [|a r IH]; intros l' H x Hx; [destruct Hx|]. cbn in H.
  destruct (f a) eqn:E; [|discriminate]. destruct (map_opt f r) eqn:E2; [|discriminate]. destruct Hx as [<-|Hx]; [eauto|]. now apply (IH l).
Qed.

Lemma count_prefix_map : forall {A B} (g : A -> B) (f : B -> bool) l, count_prefix f (map g l) = count_prefix (fun a => f (g a)) l.
Proof. intros. induction l as [|a r IH]; [reflexivity|]. cbn. now rewrite IH. Qed.
Lemma count_prefix_ext : forall {A} (f g : A -> bool) l, (forall a, f a = g a) -> count_prefix f l = count_prefix g l.
Proof. intros A f g l H. induction l as [|a r IH]; [reflexivity|]. cbn. now rewrite H, IH. Qed.
Lemma count_prefix_firstn : forall {A} (f : A -> bool) l a, In a (firstn (count_prefix f l) l) -> f a = true.
Proof. intros A f l. induction l as [|b r IH]; intros a H; [destruct H|]. cbn in H. destruct (f b) eqn:E; [|destruct H]. destruct H as [<-|H]; auto. Qed.
Lemma count_prefix_skipn : forall {A} (f : A -> bool) l, match skipn (count_prefix f l) l with [] => True | a :: _ => f a = false end.
Proof. intros A f l. induction l as [|b r IH]; [exact I|]. cbn. destruct (f b) eqn:E; [exact IH|]. cbn. exact E. Qed.

(** ** Powers of two *)
Lemma log_mono : forall a b, a <= b -> log2_ceiling a <= log2_ceiling b.
Proof. intros. now apply Nat.log2_up_le_mono. Qed.
Lemma le_bit_ceil : forall n, n <= bit_ceil n.
Proof. intros [|[|n]]; [apply Nat.le_0_l|cbn; lia|]. apply Nat.log2_log2_up_spec. lia. Qed.
Lemma pow2_inj : forall a b, Nat.pow 2 a = Nat.pow 2 b -> a = b.
Proof. intros a b H. apply (Nat.pow_inj_r 2); [lia|assumption]. Qed.
Lemma pow2_pos' : forall t, 1 <= Nat.pow 2 t.
Proof. intros t. induction t; cbn; lia. Qed.
Lemma pow2_half : forall t, Nat.div (Nat.pow 2 (S t)) 2 = Nat.pow 2 t.
Proof. intros t. rewrite Nat.pow_succ_r', Nat.mul_comm. apply Nat.div_mul. lia. Qed.
Lemma bit_ceil_eqb : forall n t, (bit_ceil n =? Nat.pow 2 t) = (log2_ceiling n =? t).
Proof.
  intros n t. destruct (Nat.eqb_spec (log2_ceiling n) t) as [<-|H].
  - unfold bit_ceil. rewrite Nat.eqb_refl. reflexivity.
  - apply Nat.eqb_neq. intros E. apply H. now apply pow2_inj.
Qed.
Lemma is_log_spec : forall n, is_log (log2_ceiling n) n.
Proof.
  intros n. split; [apply le_bit_ceil|]. intros e' H. unfold log2_ceiling. destruct (le_lt_dec n 1) as [Hn|Hn].
  - rewrite Nat.log2_up_eqn0 by lia. lia.
  - apply Nat.log2_up_le_pow2; lia.
Qed.
Lemma is_log_unique : forall e n, is_log e n -> e = log2_ceiling n.
Proof. intros e n [H1 H2]. destruct (is_log_spec n) as [H3 H4]. specialize (H2 _ H3). specialize (H4 _ H1). lia. Qed.
