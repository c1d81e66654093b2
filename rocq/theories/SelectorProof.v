(** Which selectors are combined: the exclusion matrix, the loops of CombineSimpleSelectors. *)
From Coq Require Import List Arith Bool Lia Permutation.
From Verif Require Import Field ExprModel SelectorModel.
Import ListNotations.

Lemma set_true_length l i : i < length l -> length (set_true l i) = length l.
Proof. intros H. unfold set_true. rewrite app_length, firstn_length. cbn [length]. rewrite skipn_length. lia. Qed.
Lemma set_true_nth l i j : i < length l -> nth_error (set_true l i) j = if j =? i then Some true else nth_error l j.
Proof.
  intros H. unfold set_true. destruct (Nat.eqb_spec j i) as [->|N].
  - rewrite nth_error_app2 by (rewrite firstn_length; lia). rewrite firstn_length. replace (i - Nat.min i (length l)) with 0 by lia. reflexivity.
  - destruct (Nat.lt_ge_cases j i).
    + rewrite nth_error_app1 by (rewrite firstn_length; lia). clear -H0. revert l j H0. induction i as [|i IH]; intros l j H0; [lia|].
      destruct l; [reflexivity|]. destruct j; [reflexivity|]. cbn. apply IH. lia.
    + rewrite nth_error_app2 by (rewrite firstn_length; lia). rewrite firstn_length. replace (j - Nat.min i (length l)) with (S (j - S i)) by lia.
      cbn [nth_error]. clear -H0 N. assert (i < j) by lia. clear H0 N. revert l j H. induction i as [|i IH]; intros l j H.
      * destruct l; [destruct j; [lia|cbn; destruct (j - 0); reflexivity]|]. destruct j; [lia|]. cbn. rewrite Nat.sub_0_r. reflexivity.
      * destruct l; [destruct j; [lia|]; cbn [skipn]; destruct (S j - S (S i)); reflexivity|]. destruct j; [lia|].
        cbn [nth_error]. rewrite <- (IH l j) by lia. reflexivity.
Qed.

Lemma is_orthogonal_sym a b : is_orthogonal a b = is_orthogonal b a.
Proof.
  unfold is_orthogonal. generalize (activations a) (activations b). clear. intros l. induction l as [|x l IH]; intros [|y m]; try reflexivity.
  cbn. rewrite IH, (andb_comm x y). reflexivity.
Qed.
Lemma is_orthogonal_row a b r : is_orthogonal a b = true -> nth r (activations a) false = true -> nth r (activations b) false = false.
Proof.
  unfold is_orthogonal. generalize (activations a) (activations b). clear. intros l. revert r. induction l as [|x l IH]; intros r m H Ha.
  - destruct r; discriminate.
  - destruct m as [|y m]; [destruct r; reflexivity|]. cbn in H. apply andb_true_iff in H as [H1 H2]. destruct r.
    + cbn in *. subst x. cbn in H1. apply negb_true_iff in H1. exact H1.
    + cbn in *. apply (IH r m H2 Ha).
Qed.

Lemma exclusive_spec sels src dst a b : nth_error sels src = Some a -> nth_error sels dst = Some b -> src <> dst ->
  is_exclusive (exclusion_matrix sels) src dst = Some (negb (is_orthogonal a b)).
Proof.
  intros Ha Hb N. assert (La : src < length sels) by (apply nth_error_Some; congruence). assert (Lb : dst < length sels) by (apply nth_error_Some; congruence).
  unfold is_exclusive, exclusion_matrix.
  erewrite map_nth_error by (rewrite (nth_error_nth' _ 0) by (rewrite seq_length; lia); rewrite seq_nth by lia; reflexivity).
  erewrite map_nth_error by (rewrite (nth_error_nth' _ 0) by (rewrite seq_length; lia); rewrite seq_nth by lia; reflexivity).
  cbn [Nat.add]. destruct (Nat.lt_ge_cases src dst).
  - rewrite Nat.max_r, Nat.min_l, Ha, Hb by lia. rewrite is_orthogonal_sym. reflexivity.
  - rewrite Nat.max_l, Nat.min_r, Ha, Hb by lia. reflexivity.
Qed.

(** Two positions hold orthogonal selectors. *)
Definition orth_at (sels : list description) (i j : nat) : Prop :=
  forall a b, nth_error sels i = Some a -> nth_error sels j = Some b -> is_orthogonal a b = true.
Lemma orth_at_sym sels i j : orth_at sels i j -> orth_at sels j i.
Proof. intros H a b Ha Hb. rewrite is_orthogonal_sym. apply (H b a Hb Ha). Qed.

Lemma any_exclusive_spec sels j comb : j < length sels -> (forall i, In i comb -> i < length sels /\ i <> j) ->
  exists b, any_exclusive (exclusion_matrix sels) j comb = Some b /\ (b = false -> forall i, In i comb -> orth_at sels j i).
Proof.
  intros Hj. induction comb as [|i r IH]; intros H; [exists false; cbn; tauto|].
  destruct (H i (or_introl eq_refl)) as [Hi N].
  destruct (nth_error sels j) as [a|] eqn:Ea; [|apply nth_error_None in Ea; lia].
  destruct (nth_error sels i) as [b|] eqn:Eb; [|apply nth_error_None in Eb; lia].
  cbn [any_exclusive]. rewrite (exclusive_spec sels j i a b Ea Eb) by congruence.
  destruct (is_orthogonal a b) eqn:Eo; cbn [negb].
  - destruct IH as [b' [-> Hb']]; [intros k Hk; apply H; right; exact Hk|]. exists b'. split; [reflexivity|]. intros -> k [<-|Hk].
    + intros a' b'' Ha' Hb''. congruence.
    + apply Hb'; [reflexivity|exact Hk].
  - exists true. split; [reflexivity|discriminate].
Qed.

Lemma join_spec sels md deg js : forall d comb added,
  length added = length sels -> NoDup js -> (forall j, In j js -> j < length sels) -> (forall j, In j js -> ~ In j comb) ->
  NoDup comb -> (forall i, In i comb -> i < length sels /\ nth_error added i = Some true) ->
  (forall i j, In i comb -> In j comb -> i <> j -> orth_at sels i j) ->
  exists extra added', join (exclusion_matrix sels) md deg js d comb added = Some (comb ++ extra, added') /\
    length added' = length sels /\ incl extra js /\ NoDup (comb ++ extra) /\
    (forall i, In i extra -> nth_error added i = Some false) /\
    (forall i, nth_error added' i = if in_dec Nat.eq_dec i extra then Some true else nth_error added i) /\
    (forall i j, In i (comb ++ extra) -> In j (comb ++ extra) -> i <> j -> orth_at sels i j) /\
    (deg - 1 <= d -> d + length comb <= md -> d + length (comb ++ extra) <= md).
Proof.
  induction js as [|j js IH]; intros d comb added HL ND Hjs Hdis NDc Hc Ho.
  - exists [], added. rewrite app_nil_r. cbn [join]. repeat split; auto; try (intros ? []).
  - assert (Stop : exists extra added', Some (comb, added) = Some (comb ++ extra, added') /\
      length added' = length sels /\ incl extra (j :: js) /\ NoDup (comb ++ extra) /\
      (forall i, In i extra -> nth_error added i = Some false) /\
      (forall i, nth_error added' i = if in_dec Nat.eq_dec i extra then Some true else nth_error added i) /\
      (forall i j, In i (comb ++ extra) -> In j (comb ++ extra) -> i <> j -> orth_at sels i j) /\
      (deg - 1 <= d -> d + length comb <= md -> d + length (comb ++ extra) <= md)).
    { exists [], added. rewrite app_nil_r. repeat split; auto; try (intros ? []). }
    cbn [join]. destruct (d + length comb =? md); [exact Stop|]. clear Stop.
    inversion ND as [|? ? Hnj ND']; subst.
    assert (Skip : exists extra added', join (exclusion_matrix sels) md deg js d comb added = Some (comb ++ extra, added') /\
      length added' = length sels /\ incl extra (j :: js) /\ NoDup (comb ++ extra) /\
      (forall i, In i extra -> nth_error added i = Some false) /\
      (forall i, nth_error added' i = if in_dec Nat.eq_dec i extra then Some true else nth_error added i) /\
      (forall i j, In i (comb ++ extra) -> In j (comb ++ extra) -> i <> j -> orth_at sels i j) /\
      (deg - 1 <= d -> d + length comb <= md -> d + length (comb ++ extra) <= md)).
    { destruct (IH d comb added HL ND') as [extra [added' [H1 [H2 [H3 H4]]]]]; auto.
      - intros k Hk. apply Hjs. right. exact Hk.
      - intros k Hk. apply Hdis. right. exact Hk.
      - exists extra, added'. repeat split; auto; try apply H4. intros x Hx. right. apply H3. exact Hx. }
    assert (Hj : j < length sels) by (apply Hjs; left; reflexivity).
    destruct (nth_error added j) as [[|]|] eqn:Ej; [exact Skip| |apply nth_error_None in Ej; lia].
    destruct (any_exclusive_spec sels j comb Hj) as [b [-> Hb]].
    { intros i Hi. split; [apply Hc; exact Hi|]. intros ->. apply (Hdis j); [left; reflexivity|exact Hi]. }
    destruct b; [exact Skip|]. cbv zeta. destruct (md <? Nat.max d (deg - 1) + length comb + 1) eqn:Emd; [exact Skip|]. clear Skip.
    apply Nat.ltb_ge in Emd. specialize (Hb eq_refl).
    assert (Hjl : j < length added) by lia.
    destruct (IH (Nat.max d (deg - 1)) (comb ++ [j]) (set_true added j)) as [extra [added' [H1 [H2 [H3 [H4 [H5 [H6 [H7 H8]]]]]]]]].
    { rewrite set_true_length by exact Hjl. exact HL. }
    { exact ND'. }
    { intros k Hk. apply Hjs. right. exact Hk. }
    { intros k Hk Hin. apply in_app_or in Hin as [Hin|[<-|[]]]; [apply (Hdis k); [right; exact Hk|exact Hin]|contradiction]. }
    { apply Permutation_NoDup with (l := j :: comb); [apply Permutation_cons_append|]. constructor; [|exact NDc]. apply Hdis. left. reflexivity. }
    { intros i Hi. rewrite (set_true_nth added j i Hjl). apply in_app_or in Hi as [Hi|[<-|[]]].
      - destruct (Hc i Hi) as [? E]. split; [assumption|]. destruct (i =? j); [reflexivity|exact E].
      - split; [exact Hj|]. rewrite Nat.eqb_refl. reflexivity. }
    { intros x y Hx Hy N. apply in_app_or in Hx as [Hx|[<-|[]]]; apply in_app_or in Hy as [Hy|[<-|[]]].
      - apply Ho; assumption.
      - apply orth_at_sym. apply Hb. exact Hx.
      - apply Hb. exact Hy.
      - contradiction. }
    rewrite <- app_assoc in H1. cbn [app] in H1. rewrite <- app_assoc in H4, H7, H8. cbn [app] in H4, H7, H8.
    exists (j :: extra), added'. split; [exact H1|]. split; [exact H2|]. split; [|split; [exact H4|split; [|split; [|split; [exact H7|]]]]].
    + intros x [<-|Hx]; [left; reflexivity|right; apply H3; exact Hx].
    + intros i [<-|Hi]; [exact Ej|]. specialize (H5 i Hi). rewrite (set_true_nth added j i Hjl) in H5. destruct (i =? j); [discriminate|exact H5].
    + intros i. rewrite H6, (set_true_nth added j i Hjl).
      destruct (in_dec Nat.eq_dec i extra) as [I|I]; destruct (in_dec Nat.eq_dec i (j :: extra)) as [I'|I']; try reflexivity.
      * exfalso. apply I'. right. exact I.
      * destruct I' as [<-|I']; [rewrite Nat.eqb_refl; reflexivity|contradiction].
      * destruct (Nat.eqb_spec i j); [subst; exfalso; apply I'; left; reflexivity|reflexivity].
    + intros Hd Hmd. rewrite Nat.max_l in H8, Emd by lia. apply H8; [lia|]. rewrite app_length. cbn [length]. lia.
Qed.

(** What the loops produce: [combs] covers each position not yet added exactly once, and each combination is pairwise orthogonal. *)
Definition good_combs (sels : list description) (md : nat) (combs : list (list nat)) : Prop :=
  NoDup (concat combs) /\
  Forall (fun c => (forall i j, In i c -> In j c -> i <> j -> orth_at sels i j) /\
                   exists i r s, c = i :: r /\ nth_error sels i = Some s /\ Forall (fun j => i < j) r /\
                                 (1 <= max_degree_of s -> max_degree_of s - 1 + length c <= md)) combs.

Lemma nodup_app_intro {A} (l m : list A) : NoDup l -> NoDup m -> (forall x, In x l -> ~ In x m) -> NoDup (l ++ m).
Proof.
  intros Hl Hm Hd. induction l as [|x l IH]; [exact Hm|]. inversion Hl; subst. cbn. constructor.
  - intros Hin. apply in_app_or in Hin as [?|?]; [contradiction|]. apply (Hd x); [left; reflexivity|assumption].
  - apply IH; [assumption|]. intros y Hy. apply Hd. right. exact Hy.
Qed.

Lemma combine_simple_spec sels md : forall todo k added combs, todo + k = length sels ->
  length added = length sels -> (forall i, i < k -> nth_error added i = Some true) ->
  combine_simple (exclusion_matrix sels) sels md (seq k todo) added = Some combs ->
  good_combs sels md combs /\ (forall i, In i (concat combs) <-> nth_error added i = Some false).
Proof.
  induction todo as [|todo IH]; intros k added combs Hk HL Hadd HE.
  - cbn [seq combine_simple] in HE. injection HE as <-. split; [split; [constructor|constructor]|]. intros i. split; [intros []|].
    intros E. assert (i < length added) by (apply nth_error_Some; congruence). rewrite Hadd in E by lia. discriminate.
  - cbn [seq combine_simple] in HE. destruct (nth_error added k) as [[|]|] eqn:Ek; [|destruct (nth_error sels k) as [s|] eqn:Es; [|discriminate]|discriminate].
    + apply IH in HE; [exact HE|lia|exact HL|]. intros i Hi. destruct (Nat.eq_dec i k) as [->|]; [exact Ek|apply Hadd; lia].
    + destruct (md <? max_degree_of s) eqn:Emd; [discriminate|]. apply Nat.ltb_ge in Emd.
      assert (Hkl : k < length added) by lia.
      destruct (join_spec sels md (max_degree_of s) (seq (S k) (length sels - S k)) (max_degree_of s - 1) [k] (set_true added k))
        as [extra [added' [H1 [H2 [H3 [H4 [H5 [H6 [H7 H8]]]]]]]]].
      { rewrite set_true_length; lia. }
      { apply seq_NoDup. }
      { intros j Hj. apply in_seq in Hj. lia. }
      { intros j Hj [E|[]]. apply in_seq in Hj. lia. }
      { constructor; [intros []|constructor]. }
      { intros i [<-|[]]. split; [lia|]. rewrite set_true_nth, Nat.eqb_refl by lia. reflexivity. }
      { intros i j [<-|[]] [<-|[]] N. contradiction. }
      rewrite H1 in HE.
      destruct (combine_simple (exclusion_matrix sels) sels md (seq (S k) todo) added') as [r|] eqn:Er; [|discriminate].
      injection HE as <-.
      assert (Hset : forall i, nth_error (set_true added k) i = if i =? k then Some true else nth_error added i) by (intros i; apply set_true_nth; lia).
      apply IH in Er; [|lia|exact H2|].
      2:{ intros i Hi. rewrite H6. destruct (in_dec Nat.eq_dec i extra); [reflexivity|]. rewrite Hset. destruct (Nat.eqb_spec i k); [reflexivity|apply Hadd; lia]. }
      destruct Er as [[ND HF] Hcov]. split.
      * split.
        -- cbn [concat]. apply nodup_app_intro; [exact H4|exact ND|]. intros x Hx Hin. apply Hcov in Hin. rewrite H6 in Hin.
           destruct (in_dec Nat.eq_dec x extra) as [I|I]; [discriminate|]. destruct Hx as [<-|Hx]; [|contradiction].
           rewrite Hset, Nat.eqb_refl in Hin. discriminate.
        -- constructor; [|exact HF]. split; [exact H7|]. exists k, extra, s. split; [reflexivity|]. split; [exact Es|]. split.
           ++ apply Forall_forall. intros j Hj. apply H3 in Hj. apply in_seq in Hj. lia.
           ++ intros Hs. apply H8; [lia|]. cbn [length]. lia.
      * intros i. cbn [concat]. rewrite in_app_iff, Hcov, H6. cbn [app]. destruct (in_dec Nat.eq_dec i extra) as [I|I].
        -- split; [|intros _; left; right; exact I]. intros _. specialize (H5 i I). rewrite Hset in H5. destruct (i =? k); [discriminate|exact H5].
        -- rewrite Hset. destruct (Nat.eqb_spec i k) as [->|N].
           ++ split; [intros _; exact Ek|intros _; left; left; reflexivity].
           ++ split; [intros [[E|E]|E]; [congruence|contradiction|exact E]|intros E; right; exact E].
Qed.

Lemma combine_simple_some sels md : (forall s, In s sels -> max_degree_of s <= md) -> forall todo k added, todo + k = length sels ->
  length added = length sels -> exists combs, combine_simple (exclusion_matrix sels) sels md (seq k todo) added = Some combs.
Proof.
  intros Hdeg. induction todo as [|todo IH]; intros k added Hk HL; [exists []; reflexivity|].
  cbn [seq combine_simple]. destruct (nth_error added k) as [b|] eqn:Ek; [|apply nth_error_None in Ek; lia].
  destruct b; [apply IH; lia|]. destruct (nth_error sels k) as [s|] eqn:Es; [|apply nth_error_None in Es; lia].
  assert (Hs : (md <? max_degree_of s) = false) by (apply Nat.ltb_ge, Hdeg; eapply nth_error_In; exact Es). rewrite Hs.
  assert (Hkl : k < length added) by lia.
  destruct (join_spec sels md (max_degree_of s) (seq (S k) (length sels - S k)) (max_degree_of s - 1) [k] (set_true added k))
        as [extra [added' [H1 [H2 _]]]].
  { rewrite set_true_length; lia. }
  { apply seq_NoDup. }
  { intros j Hj. apply in_seq in Hj. lia. }
  { intros j Hj [E|[]]. apply in_seq in Hj. lia. }
  { constructor; [intros []|constructor]. }
  { intros i [<-|[]]. split; [lia|]. rewrite set_true_nth, Nat.eqb_refl by lia. reflexivity. }
  { intros i j [<-|[]] [<-|[]] N. contradiction. }
  rewrite H1. destruct (IH (S k) added') as [r ->]; [lia|exact H2|]. eexists. reflexivity.
Qed.
