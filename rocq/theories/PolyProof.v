From Coq Require Import ZArith List Bool Arith Lia Ring Field Field_theory Permutation.
From Verif Require Import Field BigIntModel ParallelizeModel ParallelizeProof SemigroupModel PolyModel PolySpec.
Import ListNotations.
Open Scope fld_scope.

Lemma ofold_app {A B} (f : A -> B -> option A) l1 l2 a :
  ofold f (l1 ++ l2) a = match ofold f l1 a with Some a' => ofold f l2 a' | None => None end.
Proof. revert a. induction l1 as [|x l1 IH]; intros a; cbn; [reflexivity|]. destruct (f a x); auto. Qed.
Lemma ofold_ext {A B} (f g : A -> B -> option A) l a : (forall a x, In x l -> f a x = g a x) -> ofold f l a = ofold g l a.
Proof.
  revert a. induction l as [|x l IH]; intros a H; cbn; [reflexivity|].
  rewrite H by (left; reflexivity). destruct (g a x); auto. apply IH. intros. apply H. right. auto.
Qed.
Lemma ofold_flat {A B C} (f : A -> B -> option A) (g : C -> list B) l a :
  ofold f (flat_map g l) a = ofold (fun a x => ofold f (g x) a) l a.
Proof.
  revert a. induction l as [|x l IH]; intros a; cbn; [reflexivity|].
  rewrite ofold_app. destruct (ofold f (g x) a); auto.
Qed.
Lemma ofold_map {A B C} (f : A -> B -> option A) (g : C -> B) l a : ofold f (map g l) a = ofold (fun a x => f a (g x)) l a.
Proof. revert a. induction l as [|x l IH]; intros a; cbn; [reflexivity|]. destruct (f a (g x)); auto. Qed.

Section P.
  Variable K : fld.
  Add Field KfP : (fld_theory K).

  Lemma coeff_over (l : list K) i : (length l <= i)%nat -> coeff l i = 0.
  Proof. apply nth_overflow. Qed.
  Lemma coeff_nth_error (l : list K) i : (i < length l)%nat -> nth_error l i = Some (coeff l i).
  Proof. apply nth_error_nth'. Qed.
  Lemma at_coeff (l : list K) i : at_ l i = coeff l i.
  Proof.
    unfold at_, coeff. destruct (nth_error l i) eqn:E; [symmetry; apply nth_error_nth; exact E|].
    rewrite nth_overflow; [reflexivity|]. apply nth_error_None. exact E.
  Qed.
  Lemma coeff_app (a b : list K) i : coeff (a ++ b) i = if Nat.ltb i (length a) then coeff a i else coeff b (i - length a).
  Proof.
    unfold coeff. destruct (Nat.ltb_spec i (length a)); [apply app_nth1; auto|apply app_nth2; auto].
  Qed.
  Lemma coeff_repeat n i : coeff (repeat (0 : K) n) i = 0.
  Proof. unfold coeff. destruct (le_lt_dec n i); [apply nth_overflow; rewrite repeat_length; lia|apply nth_repeat]. Qed.
  Lemma coeff_map_seq (f : nat -> K) n i : coeff (map f (seq 0 n)) i = if Nat.ltb i n then f i else 0.
  Proof.
    unfold coeff. destruct (Nat.ltb_spec i n).
    - rewrite nth_indep with (d' := f 0%nat) by (rewrite map_length, seq_length; lia).
      rewrite map_nth, seq_nth by lia. reflexivity.
    - apply nth_overflow. rewrite map_length, seq_length. lia.
  Qed.
  Lemma coeff_map (f : K -> K) l i : f 0 = 0 -> coeff (map f l) i = f (coeff l i).
  Proof. intros H. unfold coeff. rewrite <- H at 1. apply map_nth. Qed.
  Lemma coeff_ext (a b : list K) : length a = length b -> (forall i, coeff a i = coeff b i) -> a = b.
  Proof. intros HL H. apply nth_ext with 0 0; [exact HL|]. intros n _. apply H. Qed.
  Lemma coeff_last (l : list K) : l <> [] -> coeff l (length l - 1) = last l 1.
  Proof.
    intros H. destruct (exists_last H) as (l' & x & ->). unfold coeff. rewrite last_last, app_length, app_nth2; cbn; [|lia].
    replace (length l' + 1 - 1 - length l')%nat with 0%nat by lia. reflexivity.
  Qed.
  Lemma canonical_nil : canonical ([] : list K). Proof. apply f1_neq_0. Qed.
  Lemma canonical_lead (l : list K) : canonical l -> l <> [] -> coeff l (length l - 1) <> 0.
  Proof. intros H Hn. rewrite coeff_last by exact Hn. exact H. Qed.
  Lemma canonical_of_lead (l : list K) : (l <> [] -> coeff l (length l - 1) <> 0) -> canonical l.
  Proof.
    intros H. destruct l as [|x l]; [apply canonical_nil|]. unfold canonical. rewrite <- coeff_last by discriminate.
    apply H. discriminate.
  Qed.
  Lemma canonical_length_le (l : list K) n : canonical l -> (forall i, (n <= i)%nat -> coeff l i = 0) -> (length l <= n)%nat.
  Proof.
    intros H Hz. destruct (le_lt_dec (length l) n) as [|Hl]; [assumption|].
    exfalso. apply (canonical_lead l H); [destruct l; [cbn in Hl; lia|discriminate]|]. apply Hz. lia.
  Qed.
  Lemma canonical_unique (a b : list K) : canonical a -> canonical b -> (forall i, coeff a i = coeff b i) -> a = b.
  Proof.
    intros Ha Hb H. apply coeff_ext; auto. apply Nat.le_antisymm; apply canonical_length_le; auto; intros i Hi.
    - rewrite H. apply coeff_over. exact Hi.
    - rewrite <- H. apply coeff_over. exact Hi.
  Qed.
  Lemma represents_unique (a b : list K) f : represents a f -> represents b f -> a = b.
  Proof. intros [Ha Ea] [Hb Eb]. apply canonical_unique; auto. intros i. rewrite Ea, Eb. reflexivity. Qed.
  Lemma represents_ext (a : list K) f g : represents a f -> (forall i, f i = g i) -> represents a g.
  Proof. intros [Ha E] H. split; auto. intros i. rewrite E. apply H. Qed.
  Lemma represents_self (a : list K) : canonical a -> represents a (coeff a).
  Proof. intros H. split; auto. Qed.

  (** ** RemoveHighDegreeZeros *)
  Lemma iszero_eq (x : K) : iszero x = true <-> x = 0. Proof. apply feqb_eq. Qed.
  Lemma iszero_neq (x : K) : iszero x = false <-> x <> 0. Proof. apply feqb_neq. Qed.
  Lemma isone_eq (x : K) : isone x = true <-> x = 1. Proof. apply feqb_eq. Qed.
  Lemma drop_zeros_spec (l : list K) : exists z, l = repeat 0 z ++ drop_zeros l /\ hd 1 (drop_zeros l) <> 0.
  Proof.
    induction l as [|x l (z & E & Hh)].
    - exists 0%nat. split; [reflexivity|]. apply f1_neq_0.
    - cbn [drop_zeros]. destruct (iszero x) eqn:Ex.
      + apply iszero_eq in Ex. subst x. exists (S z). split; [cbn; f_equal; exact E|exact Hh].
      + exists 0%nat. split; [reflexivity|]. apply iszero_neq. exact Ex.
  Qed.
  Lemma repeat_rev {A} (x : A) n : rev (repeat x n) = repeat x n.
  Proof.
    induction n; [reflexivity|]. cbn [repeat rev]. rewrite IHn.
    clear. induction n; [reflexivity|]. cbn. f_equal. exact IHn.
  Qed.
  Lemma remove_high_spec (l : list K) : exists z, l = remove_high l ++ repeat 0 z.
  Proof.
    destruct (drop_zeros_spec (rev l)) as (z & E & _). exists z. unfold remove_high.
    rewrite <- (repeat_rev _ z), <- rev_app_distr, <- E. symmetry. apply rev_involutive.
  Qed.
  Lemma remove_high_coeff (l : list K) i : coeff (remove_high l) i = coeff l i.
  Proof.
    destruct (remove_high_spec l) as (z & E). rewrite E at 2. rewrite coeff_app, coeff_repeat.
    destruct (Nat.ltb_spec i (length (remove_high l))); [reflexivity|]. apply coeff_over. assumption.
  Qed.
  Lemma remove_high_canonical (l : list K) : canonical (remove_high l).
  Proof.
    destruct (drop_zeros_spec (rev l)) as (z & _ & Hh). unfold remove_high, canonical.
    destruct (drop_zeros (rev l)) as [|x r]; [exact Hh|]. cbn [rev]. rewrite last_last. exact Hh.
  Qed.
  Lemma remove_high_represents (l : list K) f : (forall i, coeff l i = f i) -> represents (remove_high l) f.
  Proof. intros H. split; [apply remove_high_canonical|]. intros i. rewrite remove_high_coeff. apply H. Qed.
  Lemma remove_high_id (l : list K) : canonical l -> remove_high l = l.
  Proof. intros H. apply canonical_unique; auto using remove_high_canonical, remove_high_coeff. Qed.
  Lemma remove_high_length (l : list K) : (length (remove_high l) <= length l)%nat.
  Proof. apply canonical_length_le; [apply remove_high_canonical|]. intros. rewrite remove_high_coeff. apply coeff_over. assumption. Qed.
  Lemma is_zero_coeff (l : list K) i : is_zero l = true -> coeff l i = 0.
  Proof. destruct l; [|discriminate]. intros _. apply coeff_over. cbn. lia. Qed.
  Lemma is_zero_nil (l : list K) : is_zero l = true -> l = [].
  Proof. destruct l; [reflexivity|discriminate]. Qed.
  Lemma is_zero_not (l : list K) : is_zero l = false -> l <> [].
  Proof. destruct l; discriminate. Qed.
  Lemma is_one_eq (l : list K) : is_one l = true -> l = [1].
  Proof. destruct l as [|x [|y l]]; try discriminate. intros H. apply isone_eq in H. subst. reflexivity. Qed.
  Lemma degree_length (l : list K) : l <> [] -> (degree l + 1)%nat = length l.
  Proof. destruct l; [congruence|]. intros _. cbn. lia. Qed.
  Lemma degree_eq (l : list K) : degree l = (length l - 1)%nat. Proof. destruct l; reflexivity. Qed.
  Lemma leading_coeff (l : list K) : leading l = coeff l (degree l).
  Proof.
    destruct l as [|x l]; [reflexivity|]. rewrite degree_eq, coeff_last by discriminate. unfold leading.
    destruct (exists_last (l := x :: l)) as (l' & y & E); [discriminate|]. rewrite E, !last_last. reflexivity.
  Qed.

  (** ** Sums *)
  Lemma fsum_delta (g : nat -> K) k : forall n s, fsum (map (fun j => if Nat.eqb j k then g j else 0) (seq s n)) =
    if (s <=? k)%nat && (k <? s + n)%nat then g k else 0.
  Proof.
    induction n as [|n IH]; intros s; cbn [seq map fsum].
    - destruct (Nat.leb_spec s k), (Nat.ltb_spec k (s + 0)); cbn; try lia; reflexivity.
    - rewrite IH. destruct (Nat.eqb_spec s k) as [->|Hne].
      + destruct (Nat.leb_spec (S k) k), (Nat.leb_spec k k), (Nat.ltb_spec k (k + S n)); cbn; try lia. ring.
      + destruct (Nat.leb_spec (S s) k), (Nat.leb_spec s k), (Nat.ltb_spec k (S s + n)), (Nat.ltb_spec k (s + S n)); cbn; try lia; ring.
  Qed.
  Lemma fsum_seq_pad (f : nat -> K) n m : (n <= m)%nat -> (forall i, (n <= i)%nat -> f i = 0) ->
    fsum (map f (seq 0 m)) = fsum (map f (seq 0 n)).
  Proof.
    intros H Hz. replace m with (n + (m - n))%nat by lia. rewrite seq_app, map_app, fsum_app.
    rewrite (fsum_map_zero _ f (seq (0 + n) (m - n))); [ring|]. intros i Hi. apply in_seq in Hi. apply Hz. lia.
  Qed.

  (** ** Convolution *)
  Lemma rev_seq_perm k : map (fun i => (k - i)%nat) (seq 0 (S k)) = rev (seq 0 (S k)).
  Proof.
    apply nth_ext with 0%nat 0%nat; rewrite ?map_length, ?rev_length, ?seq_length; [reflexivity|].
    intros i Hi. rewrite (nth_indep _ _ (k - 0)%nat) by (rewrite map_length, seq_length; exact Hi).
    rewrite (map_nth (fun i => (k - i)%nat)), rev_nth by (rewrite seq_length; exact Hi).
    rewrite seq_length, !seq_nth by lia. lia.
  Qed.
  Lemma conv_comm (f g : nat -> K) k : conv f g k = conv g f k.
  Proof.
    unfold conv.
    rewrite <- (fsum_rev K (map (fun i => g i * f (k - i)%nat) _)), <- map_rev, <- rev_seq_perm, map_map.
    apply fsum_map_ext. intros i Hi. apply in_seq in Hi. replace (k - (k - i))%nat with i by lia. ring.
  Qed.
  Lemma conv_add (f f' g : nat -> K) k : conv (fun i => f i + f' i) g k = conv f g k + conv f' g k.
  Proof. unfold conv. rewrite <- fsum_map_add. apply fsum_map_ext. intros. ring. Qed.
  Lemma conv_opp (f g : nat -> K) k : conv (fun i => - f i) g k = - conv f g k.
  Proof.
    unfold conv. replace (- fsum (map (fun i => f i * g (k - i)%nat) (seq 0 (S k)))) with ((- (1)) * fsum (map (fun i => f i * g (k - i)%nat) (seq 0 (S k)))) by ring.
    rewrite <- fsum_map_mul. apply fsum_map_ext. intros. ring.
  Qed.
  Lemma conv_ext (f f' g g' : nat -> K) k : (forall i, f i = f' i) -> (forall i, g i = g' i) -> conv f g k = conv f' g' k.
  Proof. intros H1 H2. apply fsum_map_ext. intros. rewrite H1, H2. reflexivity. Qed.
  Lemma conv_delta (g : nat -> K) d c k : conv (fun i => if Nat.eqb i d then c else 0) g k =
    if Nat.leb d k then c * g (k - d)%nat else 0.
  Proof.
    unfold conv. rewrite (fsum_map_ext K _ (fun i => if Nat.eqb i d then c * g (k - i)%nat else 0)).
    2:{ intros i _. destruct (Nat.eqb i d); ring. }
    rewrite (fsum_delta (fun i => c * g (k - i)%nat)). destruct (Nat.leb_spec d k), (Nat.ltb_spec d (0 + S k)); cbn; try lia; reflexivity.
  Qed.
  Lemma conv_zero_l (f g : nat -> K) k : (forall i, f i = 0) -> conv f g k = 0.
  Proof. intros H. apply fsum_map_zero. intros. rewrite H. ring. Qed.
  Lemma conv_cons (a : K) (f g : nat -> K) k : conv (fun i => match i with O => a | S j => f j end) g k =
    a * g k + match k with O => 0 | S k => conv f g k end.
  Proof.
    unfold conv at 1. rewrite <- cons_seq. cbn [map fsum]. rewrite Nat.sub_0_r. f_equal.
    destruct k; [reflexivity|]. rewrite <- seq_shift, map_map. reflexivity.
  Qed.
  Lemma coeff_cons (a : K) l i : coeff (a :: l) i = match i with O => a | S j => coeff l j end.
  Proof. destruct i; reflexivity. Qed.
  Lemma conv_one (g : nat -> K) k : conv (coeff [1]) g k = g k.
  Proof.
    rewrite (conv_ext _ (fun i => if Nat.eqb i 0 then 1 else 0) g g); auto.
    - rewrite conv_delta. cbn. rewrite Nat.sub_0_r. ring.
    - intros [|[|i]]; reflexivity.
  Qed.
  Lemma conv_linear (r : K) (g : nat -> K) k : conv (coeff [- r; 1]) g k = match k with O => 0 | S k => g k end - r * g k.
  Proof.
    rewrite (conv_ext _ (fun i => match i with O => - r | S j => coeff [1] j end) g g); auto.
    rewrite conv_cons. destruct k; [ring|]. rewrite conv_one. ring.
  Qed.

  (** ** Writes *)
  Definition writes (ws : list (nat * K)) (c : list K) : option (list K) := ofold (fun c kv => add_at c (fst kv) (snd kv)) ws c.
  Definition wsum (ws : list (nat * K)) (k : nat) : K := fsum (map (fun kv => if Nat.eqb (fst kv) k then snd kv else 0) ws).
  Lemma set_coeff (l : list K) i v k : (i < length l)%nat -> coeff (set_nth i v l) k = if Nat.eqb k i then v else coeff l k.
  Proof.
    intros H. unfold coeff. destruct (Nat.eqb_spec k i) as [->|Hne].
    - apply nth_error_nth. eapply set_nth_same. apply coeff_nth_error. exact H.
    - pose proof (set_nth_other v l i k Hne) as E. destruct (nth_error l k) eqn:El.
      + rewrite (nth_error_nth _ _ _ El). apply nth_error_nth. rewrite E. reflexivity.
      + rewrite !nth_overflow; auto; [apply nth_error_None; exact El|]. rewrite set_nth_length. apply nth_error_None. exact El.
  Qed.
  Lemma add_at_spec (c : list K) i v : (i < length c)%nat -> exists c', add_at c i v = Some c' /\ length c' = length c /\
    forall k, coeff c' k = coeff c k + (if Nat.eqb i k then v else 0).
  Proof.
    intros H. unfold add_at. rewrite coeff_nth_error by exact H. eexists. split; [reflexivity|]. split; [apply set_nth_length|].
    intros k. rewrite set_coeff by exact H. rewrite (Nat.eqb_sym i k). destruct (Nat.eqb_spec k i) as [->|]; ring.
  Qed.
  Lemma store_at_spec (c : list K) i v : (i < length c)%nat -> exists c', store_at c i v = Some c' /\ length c' = length c /\
    forall k, coeff c' k = if Nat.eqb k i then v else coeff c k.
  Proof.
    intros H. unfold store_at. rewrite coeff_nth_error by exact H. eexists. split; [reflexivity|]. split; [apply set_nth_length|].
    intros k. apply set_coeff. exact H.
  Qed.
  Lemma writes_spec ws : forall c, Forall (fun kv => (fst kv < length c)%nat) ws -> exists c', writes ws c = Some c' /\ length c' = length c /\
    forall k, coeff c' k = coeff c k + wsum ws k.
  Proof.
    induction ws as [|[i v] ws IH]; intros c H.
    - exists c. split; [reflexivity|]. split; [reflexivity|]. intros. unfold wsum. cbn. ring.
    - inversion H as [|? ? Hi Hr]; subst. cbn [fst] in Hi. destruct (add_at_spec c i v Hi) as (c1 & E1 & L1 & C1).
      destruct (IH c1) as (c2 & E2 & L2 & C2); [rewrite L1; exact Hr|].
      exists c2. split; [unfold writes in *; cbn [ofold fst snd]; rewrite E1; exact E2|]. split; [congruence|].
      intros k. rewrite C2, C1. unfold wsum. cbn [map fsum fst snd]. ring.
  Qed.
  Lemma wsum_app a b k : wsum (a ++ b) k = wsum a k + wsum b k.
  Proof. unfold wsum. rewrite map_app. apply fsum_app. Qed.
  Lemma wsum_flat {A} (g : A -> list (nat * K)) l k : wsum (flat_map g l) k = fsum (map (fun x => wsum (g x) k) l).
  Proof. induction l as [|x l IH]; [reflexivity|]; cbn [flat_map map fsum]. rewrite wsum_app, IH. reflexivity. Qed.
  Lemma wsum_row (f : nat -> K) n s k : wsum (map (fun j => (s + j, f j)%nat) (seq 0 n)) k =
    if Nat.leb s k && Nat.ltb (k - s) n then f (k - s)%nat else 0.
  Proof.
    unfold wsum. rewrite map_map. cbn [fst snd].
    destruct (Nat.leb_spec s k) as [H|H].
    - rewrite (fsum_map_ext K _ (fun j => if Nat.eqb j (k - s) then f j else 0)).
      2:{ intros j _. destruct (Nat.eqb_spec (s + j) k), (Nat.eqb_spec j (k - s)); try lia; reflexivity. }
      rewrite fsum_delta. cbn. reflexivity.
    - apply fsum_map_zero. intros j _. destruct (Nat.eqb_spec (s + j) k); [lia|reflexivity].
  Qed.
End P.
