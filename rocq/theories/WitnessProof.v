(** Proofs about the witness collection. *)
From Coq Require Import List Bool Arith Lia.
From Verif Require Import WitnessModel WitnessSpec.
Import ListNotations.

Lemma put_length : forall A (l : list A) i a, length (put l i a) = length l.
Proof. induction l; intros [|i] b; cbn; auto. Qed.
Lemma put_nth : forall A (l : list A) i a j,
  nth_error (put l i a) j = if Nat.eqb i j then (if Nat.ltb i (length l) then Some a else None) else nth_error l j.
Proof.
  induction l as [|x l IH]; intros i a j.
  - cbn. destruct (Nat.eqb i j); [|reflexivity]. destruct j; reflexivity.
  - destruct i, j; cbn; try reflexivity. rewrite IH. destruct (Nat.eqb i j); reflexivity.
Qed.

(** Shape of the table *)
Definition shaped {A : Type} (t : list (list A)) (cols n : nat) : Prop :=
  length t = cols /\ forall c l, nth_error t c = Some l -> length l = n.
Lemma entry_put : forall A (t : list (list A)) cols n c l r v c' r', shaped t cols n -> nth_error t c = Some l -> r < n ->
  entry (put t c (put l r v)) c' r' = if Nat.eqb c c' && Nat.eqb r r' then Some v else entry t c' r'.
Proof.
  intros A t cols n c l r v c' r' [H1 H2] Hc Hr. unfold entry. rewrite put_nth.
  pose proof (H2 _ _ Hc) as Hl. assert (Hlt : c < length t) by (apply nth_error_Some; congruence).
  destruct (Nat.eqb_spec c c') as [<-|N]; cbn [andb].
  - apply Nat.ltb_lt in Hlt. rewrite Hlt, put_nth, Hc. apply Nat.ltb_lt in Hr. rewrite Hl, Hr. reflexivity.
  - reflexivity.
Qed.
Lemma shaped_put : forall A (t : list (list A)) cols n c l r v, shaped t cols n -> nth_error t c = Some l ->
  shaped (put t c (put l r v)) cols n.
Proof.
  intros A t cols n c l r v [H1 H2] Hc. split; [rewrite put_length; exact H1|].
  intros c' l'. rewrite put_nth. destruct (Nat.eqb_spec c c') as [<-|N]; [|apply H2].
  destruct (Nat.ltb c (length t)); [|discriminate]. intros [= <-]. rewrite put_length. eauto.
Qed.
Lemma shaped_new : forall A (z : A) n cols, shaped (repeat (repeat z n) cols) cols n.
Proof.
  intros. split; [apply repeat_length|]. intros c l H. apply nth_error_In, repeat_spec in H. subst. apply repeat_length.
Qed.

Section P.
  Variables R F : Type.
  Implicit Types (w : witness R F) (c : call R) (cs : list (call R)).

  (** One call *)
  Lemma assign_one : forall w c cols n b w', shaped (w_advices w) cols n -> w_usable w <= n ->
    assign_advice w c = Finished (b, w') ->
    acceptable cols (w_usable w) (w_phase w) c /\ b = Nat.leb (c_phase c) (w_phase w) /\
    shaped (w_advices w') cols n /\ w_usable w' = w_usable w /\ w_phase w' = w_phase w /\
    w_challenges w' = w_challenges w /\ w_instances w' = w_instances w /\
    forall j r, entry (w_advices w') j r =
      if b && (Nat.eqb (c_column c) j && Nat.eqb (c_row c) r) then c_value c else entry (w_advices w) j r.
  Proof.
    intros w c cols n b w' Hs Hu. unfold assign_advice, acceptable.
    destruct (Nat.ltb_spec (w_phase w) (c_phase c)) as [Hp|Hp].
    - intros [= <- <-]. repeat split; auto; try apply Hs. symmetry. apply Nat.leb_gt. exact Hp.
    - destruct (Nat.ltb_spec (c_row c) (w_usable w)) as [Hr|]; cbn [negb]; [|discriminate].
      destruct (nth_error (w_advices w) (c_column c)) as [l|] eqn:Hc; [|discriminate].
      destruct (c_value c) as [v|] eqn:Hv; [|discriminate].
      destruct (Nat.ltb (c_row c) (length l)); [|discriminate]. intros [= <- <-]. cbn.
      assert (Hlt : c_column c < cols) by (destruct Hs as [<- _]; apply nth_error_Some; congruence).
      pose proof (shaped_put _ _ _ _ _ _ (c_row c) v Hs Hc) as Hs'.
      split; [right; repeat split; auto; discriminate|]. split; [symmetry; apply Nat.leb_le; exact Hp|].
      repeat split; try apply Hs'. intros j r. eapply entry_put; eauto. lia.
  Qed.
  Lemma assign_accepts : forall w c cols n, shaped (w_advices w) cols n -> w_usable w <= n ->
    acceptable cols (w_usable w) (w_phase w) c -> exists b w', assign_advice w c = Finished (b, w').
  Proof.
    intros w c cols n [Hs1 Hs2] Hu Ha. unfold assign_advice.
    destruct (Nat.ltb_spec (w_phase w) (c_phase c)) as [Hp|Hp]; [eauto|].
    destruct Ha as [Ha|(H1 & H2 & H3)]; [lia|]. pose proof H2 as H2'. apply Nat.ltb_lt in H2. rewrite H2. cbn [negb].
    destruct (nth_error (w_advices w) (c_column c)) as [l|] eqn:Hc; [|apply nth_error_None in Hc; lia].
    destruct (c_value c) as [v|]; [|congruence]. rewrite (Hs2 _ _ Hc).
    assert (Hl : c_row c < n) by lia. apply Nat.ltb_lt in Hl. rewrite Hl. eauto.
  Qed.

  Lemma assign_all_iff : forall cs w cols n, shaped (w_advices w) cols n -> w_usable w <= n ->
    ((exists bs w', assign_all w cs = Finished (bs, w')) <-> Forall (acceptable cols (w_usable w) (w_phase w)) cs).
  Proof.
    induction cs as [|c cs IH]; intros w cols n Hs Hu; cbn.
    - split; eauto.
    - split.
      + intros (bs & w' & H). destruct (assign_advice w c) as [[b w1]| |] eqn:E; try discriminate.
        destruct (assign_one _ _ _ _ _ _ Hs Hu E) as (Ha & _ & Hs' & U & P & _).
        destruct (assign_all w1 cs) as [[bs1 w2]| |] eqn:E2; try discriminate.
        constructor; [exact Ha|]. rewrite <- U, <- P. apply (IH w1 cols n Hs'); [lia|eauto].
      + intros H. inversion H as [|? ? Ha Hf]; subst.
        destruct (assign_accepts _ _ _ _ Hs Hu Ha) as (b & w1 & E). rewrite E.
        destruct (assign_one _ _ _ _ _ _ Hs Hu E) as (_ & _ & Hs' & U & P & _).
        rewrite <- U, <- P in Hf. apply (IH w1 cols n Hs') in Hf; [|lia]. destruct Hf as (bs & w2 & ->). eauto.
  Qed.

  Lemma concerns_cons : forall p c cs k j r v,
    concerns p (c :: cs) (S k) j r v <-> concerns p cs k j r v.
  Proof. reflexivity. Qed.

  Ltac later H := match type of H with concerns ?p (_ :: ?l) (S ?k) ?a ?b ?v => change (concerns p l k a b v) in H end.

  Lemma assign_all_cells : forall cs w cols n bs w', shaped (w_advices w) cols n -> w_usable w <= n ->
    assign_all w cs = Finished (bs, w') ->
    shaped (w_advices w') cols n /\ bs = map (fun c => Nat.leb (c_phase c) (w_phase w)) cs /\
    w_challenges w' = w_challenges w /\ w_instances w' = w_instances w /\ w_usable w' = w_usable w /\
    forall j r, (exists k, concerns (w_phase w) cs k j r (entry (w_advices w') j r) /\
                   forall k' v', concerns (w_phase w) cs k' j r v' -> k' <= k) \/
                ((forall k v', ~ concerns (w_phase w) cs k j r v') /\ entry (w_advices w') j r = entry (w_advices w) j r).
  Proof.
    induction cs as [|c cs IH]; intros w cols n bs w' Hs Hu; cbn.
    - intros [= <- <-]. repeat split; auto; try apply Hs. intros j r. right. split; [|reflexivity].
      intros [|k] v' (c & H & _); discriminate.
    - destruct (assign_advice w c) as [[b w1]| |] eqn:E; try discriminate.
      destruct (assign_all w1 cs) as [[bs1 w2]| |] eqn:E2; try discriminate. intros [= <- <-].
      destruct (assign_one _ _ _ _ _ _ Hs Hu E) as (Ha & Hb & Hs1 & U & P & C & I & En).
      destruct (IH w1 cols n bs1 w2 Hs1 ltac:(lia) E2) as (Hs2 & Hbs & C2 & I2 & U2 & H). rewrite P in *.
      split; [exact Hs2|]. split; [subst; reflexivity|]. split; [congruence|]. split; [congruence|]. split; [congruence|].
      intros j r. destruct (H j r) as [(k & Hk & Hmax)|(Hno & He)].
      + left. exists (S k). split; [apply concerns_cons; exact Hk|].
        intros [|k'] v' Hc; [lia|]. later Hc. apply Hmax in Hc. lia.
      + rewrite He, En. destruct b; cbn.
        * destruct (Nat.eqb_spec (c_column c) j) as [Hj|Hj]; destruct (Nat.eqb_spec (c_row c) r) as [Hr|Hr]; cbn.
          { left. exists 0. split.
            - exists c. repeat split; auto. symmetry in Hb. apply Nat.leb_le in Hb. exact Hb.
            - intros [|k'] v' Hc; [lia|]. later Hc. destruct (Hno _ _ Hc). }
          all: right; split; [|reflexivity]; intros [|k] v' Hc;
            [destruct Hc as (c' & [= <-] & ? & ? & ? & ?); congruence|later Hc; destruct (Hno _ _ Hc)].
        * right. split; [|reflexivity]. intros [|k] v' Hc; [|later Hc; destruct (Hno _ _ Hc)].
          destruct Hc as (c' & [= <-] & Hp & _). symmetry in Hb. apply Nat.leb_gt in Hb. lia.
  Qed.

  Lemma entry_repeat : forall A (z : A) n cols j r, j < cols -> r < n -> entry (repeat (repeat z n) cols) j r = Some z.
  Proof.
    intros A z n cols j r Hj Hr. unfold entry.
    rewrite (nth_error_nth' _ (repeat z n)) by (rewrite repeat_length; exact Hj). rewrite nth_repeat.
    rewrite (nth_error_nth' _ z) by (rewrite repeat_length; exact Hr). rewrite nth_repeat. reflexivity.
  Qed.
  Lemma entry_shaped : forall A (t : list (list A)) cols n j r, shaped t cols n -> j < cols -> r < n ->
    exists v, entry t j r = Some v.
  Proof.
    intros A t cols n j r [H1 H2] Hj Hr. unfold entry.
    destruct (nth_error t j) as [l|] eqn:E; [|apply nth_error_None in E; lia].
    destruct (nth_error l r) as [v|] eqn:E2; [eauto|]. apply nth_error_None in E2. rewrite (H2 _ _ E) in E2. lia.
  Qed.

  Theorem witness_accepts : forall (z : R) n cols usable phase (ch : list (nat * F)) ins cs, usable <= n ->
    ((exists ran w, assign_all (witness_new z n cols usable phase ch ins) cs = Finished (ran, w)) <->
     Forall (acceptable cols usable phase) cs).
  Proof. intros. apply (assign_all_iff cs (witness_new z n cols usable phase ch ins) cols n); [apply shaped_new|exact H]. Qed.

  Theorem witness_cells : forall (z : R) n cols usable phase (ch : list (nat * F)) ins cs ran w, usable <= n ->
    assign_all (witness_new z n cols usable phase ch ins) cs = Finished (ran, w) ->
    length (w_advices w) = cols /\ (forall j l, nth_error (w_advices w) j = Some l -> length l = n) /\
    ran = map (fun c => Nat.leb (c_phase c) phase) cs /\
    (forall j r, j < cols -> r < n -> exists v, entry (w_advices w) j r = Some v /\ cell_value z phase cs j r v) /\
    (forall j r, j < cols -> usable <= r < n -> entry (w_advices w) j r = Some z).
  Proof.
    intros z n cols usable phase ch ins cs ran w Hu E.
    assert (Hs0 : shaped (w_advices (witness_new z n cols usable phase ch ins)) cols n) by apply shaped_new.
    destruct (assign_all_cells _ _ _ _ _ _ Hs0 Hu E) as (Hs & Hr & _ & _ & _ & H).
    assert (Hall : Forall (acceptable cols usable phase) cs) by (apply (witness_accepts z n cols usable phase ch ins cs Hu); eauto).
    cbn in H, Hr. split; [apply Hs|]. split; [apply Hs|]. split; [exact Hr|]. split.
    - intros j r Hj Hr'. destruct (entry_shaped _ _ _ _ _ _ Hs Hj Hr') as (v & Hv). exists v. split; [exact Hv|].
      destruct (H j r) as [(k & Hk & Hm)|(Hn & He)].
      + left. exists k. rewrite Hv in Hk. auto.
      + right. split; [exact Hn|]. rewrite Hv, entry_repeat in He by assumption. congruence.
    - intros j r Hj Hr'. destruct (H j r) as [(k & Hk & Hm)|(Hn & He)].
      + exfalso. destruct Hk as (c & Hc & Hp & _ & Hrow & _). apply nth_error_In in Hc.
        rewrite Forall_forall in Hall. destruct (Hall _ Hc) as [?|(_ & ? & _)]; lia.
      + rewrite He. apply entry_repeat; lia.
  Qed.

  (** Columns of a phase *)
  Lemma finish_nth : forall (ev : R -> F) one n l r, length l = n -> r < n ->
    nth_error (finish_column one ev n l) r = if Nat.eqb r (n - 1) then Some one else option_map ev (nth_error l r).
  Proof.
    intros ev one n l r Hl Hr. unfold finish_column. rewrite put_nth, map_length, Hl.
    assert (Hn : n - 1 < n) by lia. apply Nat.ltb_lt in Hn. rewrite Hn, (Nat.eqb_sym (n - 1) r).
    destruct (Nat.eqb r (n - 1)); [reflexivity|]. apply nth_error_map.
  Qed.
  Lemma phase_columns_in_gen : forall (ev : R -> F) one n phase phases adv s j col, length phases = length adv ->
    (In (j, col) (flat_map (fun q => if Nat.eqb phase (fst (snd q)) then [(fst q, finish_column one ev n (snd (snd q)))] else [])
      (combine (seq s (length adv)) (combine phases adv))) <->
     exists i l, j = s + i /\ nth_error phases i = Some phase /\ nth_error adv i = Some l /\ col = finish_column one ev n l).
  Proof.
    intros ev one n phase phases. induction phases as [|p phases IH]; intros [|a adv] s j col Hl; try discriminate; cbn.
    - split; [contradiction|]. intros ([|i] & l & _ & H & _); discriminate.
    - injection Hl as Hl. rewrite in_app_iff, IH by exact Hl. split.
      + intros [H|(i & l & -> & H)].
        * destruct (Nat.eqb_spec phase p) as [<-|]; [|contradiction]. destruct H as [[= <- <-]|[]].
          exists 0, a. repeat split; auto.
        * exists (S i), l. split; [lia|exact H].
      + intros ([|i] & l & -> & H1 & H2 & ->).
        * cbn in H1, H2. injection H1 as ->. injection H2 as ->. rewrite Nat.eqb_refl. left. left. f_equal. lia.
        * right. exists i, l. split; [lia|auto].
  Qed.
  Lemma phase_columns_in : forall (ev : R -> F) one n phase phases adv j col, length phases = length adv ->
    (In (j, col) (phase_columns one ev n phase phases adv) <->
     exists l, nth_error phases j = Some phase /\ nth_error adv j = Some l /\ col = finish_column one ev n l).
  Proof.
    intros. unfold phase_columns. rewrite phase_columns_in_gen by assumption. split.
    - intros (i & l & -> & H1). exists l. exact H1.
    - intros (l & H1). exists j, l. auto.
  Qed.

  Theorem committed_columns : forall (ev : R -> F) (z : R) one n phases usable phase (ch : list (nat * F)) ins cs ran w,
    usable < n ->
    assign_all (witness_new z n (length phases) usable phase ch ins) cs = Finished (ran, w) ->
    (forall j, (exists col, In (j, col) (phase_columns one ev n phase phases (w_advices w))) <-> nth_error phases j = Some phase) /\
    (forall j col, In (j, col) (phase_columns one ev n phase phases (w_advices w)) ->
      length col = n /\
      (forall r, r < usable -> exists v, nth_error col r = Some (ev v) /\ cell_value z phase cs j r v) /\
      (forall r, usable <= r < n - 1 -> nth_error col r = Some (ev z)) /\
      nth_error col (n - 1) = Some one).
  Proof.
    intros ev z one n phases usable phase ch ins cs ran w Hu E.
    destruct (witness_cells _ _ _ _ _ _ _ _ _ _ (Nat.lt_le_incl _ _ Hu) E) as (L & Ln & _ & Hc & Hz).
    split.
    - intros j. split.
      + intros (col & H). apply phase_columns_in in H; [|congruence]. destruct H as (l & H & _). exact H.
      + intros H. assert (Hj : j < length (w_advices w)) by (rewrite L; apply nth_error_Some; congruence).
        apply nth_error_Some in Hj. destruct (nth_error (w_advices w) j) as [l|] eqn:El; [|congruence].
        eexists. apply phase_columns_in; [congruence|]. exists l. eauto.
    - intros j col H. apply phase_columns_in in H; [|congruence]. destruct H as (l & Hp & Hl & ->).
      assert (Hj : j < length phases) by (apply nth_error_Some; congruence).
      pose proof (Ln _ _ Hl) as Hn. split; [unfold finish_column; rewrite put_length, map_length; exact Hn|].
      split; [|split].
      + intros r Hr. destruct (Hc j r Hj ltac:(lia)) as (v & Hv & Hcv). exists v. split; [|exact Hcv].
        rewrite finish_nth by (assumption || lia). destruct (Nat.eqb_spec r (n - 1)); [lia|].
        unfold entry in Hv. rewrite Hl in Hv. rewrite Hv. reflexivity.
      + intros r Hr. pose proof (Hz j r Hj ltac:(lia)) as Hv. rewrite finish_nth by (assumption || lia).
        destruct (Nat.eqb_spec r (n - 1)); [lia|]. unfold entry in Hv. rewrite Hl in Hv. rewrite Hv. reflexivity.
      + rewrite finish_nth by (assumption || lia). rewrite Nat.eqb_refl. reflexivity.
  Qed.
End P.
