From Coq Require Import List Bool Arith Lia Permutation.
From Verif Require Import TableModel TableSpec.
Import ListNotations.

Section Proofs.
  Context {V : Type}.
  Implicit Types (q cells : list (nat * nat * V)) (m : values V) (f : columns V).

  Lemma given_snoc q c0 o0 v0 c r : given (q ++ [(c0, o0, v0)]) c r = if Nat.eqb c0 c && Nat.eqb o0 r then Some v0 else given q c r.
  Proof.
    induction q as [|[[c1 o1] v1] q IH]; simpl; [reflexivity|]. rewrite IH. now destruct (Nat.eqb c0 c && Nat.eqb o0 r).
  Qed.
  Lemma given_in q c r : (exists v, In (c, r, v) q) <-> given q c r <> None.
  Proof.
    induction q as [|[[c1 o1] v1] q IH]; simpl; [split; [intros [v []] | congruence]|]. split.
    - intros [v [H|H]].
      + injection H as <- <- <-. destruct (given q c1 o1); [discriminate|]. rewrite !Nat.eqb_refl. discriminate.
      + assert (given q c r <> None) by (apply IH; eauto). now destruct (given q c r).
    - intro H. destruct (given q c r) eqn:E.
      + destruct (proj2 IH) as [w Hw]; [discriminate|]. exists w. now right.
      + destruct (Nat.eqb c1 c && Nat.eqb o1 r) eqn:E2; [|congruence]. apply andb_prop in E2. destruct E2 as [A B]. apply Nat.eqb_eq in A, B. subst. exists v1. now left.
  Qed.
  Lemma in_table_given q c : in_table q c <-> exists r, given q c r <> None.
  Proof. split; [intros [o [v H]]; exists o; apply given_in; eauto | intros [r H]; apply given_in in H; destruct H as [v H]; exists r, v; exact H]. Qed.
  Lemma given_value q c r v : given q c r = Some v -> In (c, r, v) q.
  Proof.
    induction q as [|[[c1 o1] v1] q IH]; simpl; [discriminate|]. destruct (given q c r) eqn:E; [intro H; right; now apply IH|].
    destruct (Nat.eqb c1 c && Nat.eqb o1 r) eqn:E2; [|discriminate]. intro H. injection H as ->. apply andb_prop in E2. destruct E2 as [A B]. apply Nat.eqb_eq in A, B. subst. now left.
  Qed.

  Lemma find_store m c e c' : find (store m c e) c' = if Nat.eqb c c' then e else find m c'.
  Proof.
    induction m as [|[c1 e1] m IH]; simpl; [reflexivity|]. destruct (Nat.eqb c1 c) eqn:E; simpl.
    - apply Nat.eqb_eq in E. subst. now destruct (Nat.eqb c c').
    - rewrite IH. destruct (Nat.eqb c1 c') eqn:E1; [|reflexivity]. apply Nat.eqb_eq in E1. subst. rewrite Nat.eqb_sym in E. now rewrite E.
  Qed.
  Lemma store_keys m c e c' : In c' (map fst (store m c e)) <-> c' = c \/ In c' (map fst m).
  Proof.
    induction m as [|[c1 e1] m IH]; simpl; [intuition congruence|]. destruct (Nat.eqb c1 c) eqn:E; simpl; [apply Nat.eqb_eq in E; subst; intuition congruence|]. rewrite IH. tauto.
  Qed.
  Lemma store_nodup m c e : NoDup (map fst m) -> NoDup (map fst (store m c e)).
  Proof.
    induction m as [|[c1 e1] m IH]; simpl; intro H; [repeat constructor; intros []|]. inversion H; subst. destruct (Nat.eqb c1 c) eqn:E; simpl.
    - apply Nat.eqb_eq in E. subst. constructor; assumption.
    - constructor; [|now apply IH]. rewrite store_keys. intros [->|X]; [rewrite Nat.eqb_refl in E; discriminate | contradiction].
  Qed.
  Lemma find_in m c e : NoDup (map fst m) -> In (c, e) m -> find m c = e.
  Proof.
    induction m as [|[c1 e1] m IH]; simpl; intros H []; inversion H; subst.
    - injection H0 as -> ->. now rewrite Nat.eqb_refl.
    - destruct (Nat.eqb c1 c) eqn:E; [|now apply IH]. apply Nat.eqb_eq in E. subst. exfalso. apply H3. change c with (fst (c, e)). now apply in_map.
  Qed.
  Lemma in_find m c : In c (map fst m) -> In (c, find m c) m.
  Proof.
    induction m as [|[c1 e1] m IH]; simpl; [intros []|]. intros [->|H]; [rewrite Nat.eqb_refl; now left|]. destruct (Nat.eqb c1 c) eqn:E; [apply Nat.eqb_eq in E; subst; now left | right; auto].
  Qed.

  Lemma set_true_length l : forall i, length (set_true l i) = length l.
  Proof. induction l as [|b l IH]; intros [|i]; simpl; auto. Qed.
  Lemma set_true_nth l : forall i o, i < length l -> nth o (set_true l i) false = if Nat.eqb i o then true else nth o l false.
  Proof.
    induction l as [|b l IH]; intros i o Hi; simpl in Hi; [lia|]. destruct i as [|i], o as [|o]; simpl; try reflexivity. apply IH. lia.
  Qed.
  Lemma resize_nth l n o : nth o (resize l n) false = nth o l false.
  Proof.
    unfold resize. destruct (Nat.lt_ge_cases o (length l)) as [H|H]; [now rewrite app_nth1|]. rewrite app_nth2 by exact H. rewrite (nth_overflow l) by exact H.
    generalize (o - length l). generalize (n - length l). intro k. induction k as [|k IH]; intros [|j]; simpl; auto.
  Qed.
  Definition ends_true (l : list bool) : Prop := l = [] \/ nth (length l - 1) l false = true.
  Lemma mark_spec l o : ends_true l -> (forall r, nth r (mark l o) false = if Nat.eqb o r then true else nth r l false) /\ ends_true (mark l o).
  Proof.
    intro H. unfold mark. destruct (Nat.leb (length l) o) eqn:E.
    - apply Nat.leb_le in E. assert (HL : length (resize l (o + 1)) = o + 1) by (unfold resize; rewrite app_length, repeat_length; lia).
      assert (G : forall r, nth r (set_true (resize l (o + 1)) o) false = if Nat.eqb o r then true else nth r l false) by (intro r; rewrite set_true_nth, resize_nth by lia; reflexivity).
      split; [exact G|]. right. rewrite set_true_length, HL, G. replace (o + 1 - 1) with o by lia. now rewrite Nat.eqb_refl.
    - apply Nat.leb_gt in E. assert (G : forall r, nth r (set_true l o) false = if Nat.eqb o r then true else nth r l false) by (intro r; rewrite set_true_nth by lia; reflexivity).
      split; [exact G|]. right. rewrite set_true_length, G. destruct (Nat.eqb o (length l - 1)); [reflexivity|]. destruct H as [->|H]; [simpl in E; lia | exact H].
  Qed.

  Definition seen (p : pass) (v : V) : option V := match p with Keygen _ => Some v | Proving => None end.
  Definition row_ok (p : pass) (o : nat) : Prop := match p with Keygen u => o < u | Proving => True end.

  Definition inv (p : pass) f0 q m f : Prop :=
    NoDup (map fst m) /\ (forall c, In c (map fst m) <-> in_table q c) /\
    (forall c, fst (find m c) = option_map (seen p) (given q c 0)) /\
    (forall c o, nth o (snd (find m c)) false = true <-> given q c o <> None) /\ (forall c, ends_true (snd (find m c))) /\
    (forall c r, f c r = match p, given q c r with Keygen _, Some v => Some v | _, _ => f0 c r end).

  Definition good (p : pass) (used : list nat) q (x : nat * nat * V) : Prop :=
    ~ In (fst (fst x)) used /\ row_ok p (snd (fst x)) /\ (snd (fst x) = 0 -> given q (fst (fst x)) 0 = None).
  Fixpoint all_good p used q cells : Prop := match cells with [] => True | x :: r => good p used q x /\ all_good p used (q ++ [x]) r end.

  Lemma used_false c used : existsb (Nat.eqb c) used = true <-> In c used.
  Proof. rewrite existsb_exists. split; [intros [x [H E]]; apply Nat.eqb_eq in E; now subst | intro H; exists c; split; [exact H | apply Nat.eqb_refl]]. Qed.

  Lemma step p used f0 q m f c o v : inv p f0 q m f -> good p used q (c, o, v) ->
    exists m' f', assign_cell p used m f c o v = Done (true, m', f') /\ inv p f0 (q ++ [(c, o, v)]) m' f'.
  Proof.
    intros [I1 [I2 [I3 [I4 [I5 I6]]]]] [G1 [G2 G3]]. cbn [fst snd] in *. unfold assign_cell.
    destruct (existsb (Nat.eqb c) used) eqn:E; [apply used_false in E; contradiction|].
    assert (Ef : exists f', assign_fixed p f c o v = Done (f', seen p v) /\ forall c' r, f' c' r = match p, given (q ++ [(c, o, v)]) c' r with Keygen _, Some w => Some w | _, _ => f0 c' r end).
    { unfold assign_fixed, row_ok, seen in *. destruct p as [u|].
      - rewrite (proj2 (Nat.ltb_lt o u) G2). eexists. split; [reflexivity|]. intros c' r. unfold set_cell. rewrite given_snoc, (Nat.eqb_sym c' c), (Nat.eqb_sym r o), I6. now destruct (Nat.eqb c c' && Nat.eqb o r).
      - eexists. split; [reflexivity|]. intros c' r. apply I6. }
    destruct Ef as [f' [Ef Hf]]. rewrite Ef.
    assert (Hfin : forall d, d = (if Nat.eqb o 0 then Some (seen p v) else fst (find m c)) -> inv p f0 (q ++ [(c, o, v)]) (store m c (d, mark (snd (find m c)) o)) f').
    { intros d Hd. destruct (mark_spec (snd (find m c)) o (I5 c)) as [M1 M2]. split; [now apply store_nodup|]. split.
      { intro c'. rewrite store_keys, I2. split.
        - intros [->|[o' [w H]]]; [exists o, v; apply in_or_app; right; now left | exists o', w; apply in_or_app; now left].
        - intros [o' [w H]]. apply in_app_or in H. destruct H as [H|[H|[]]]; [right; exists o', w; exact H | left; congruence]. }
      split.
      { intro c'. rewrite find_store, given_snoc. destruct (Nat.eqb c c') eqn:Ec; simpl; [|apply I3]. apply Nat.eqb_eq in Ec. subst c'. subst d. destruct (Nat.eqb o 0); [reflexivity | apply I3]. }
      split.
      { intros c' r. rewrite find_store, given_snoc. destruct (Nat.eqb c c') eqn:Ec; simpl; [|apply I4]. apply Nat.eqb_eq in Ec. subst c'. rewrite M1. destruct (Nat.eqb o r); [split; [discriminate | reflexivity] | apply I4]. }
      split; [|exact Hf]. intro c'. rewrite find_store. destruct (Nat.eqb c c'); [exact M2 | apply I5]. }
    destruct (Nat.eqb o 0) eqn:E0.
    - apply Nat.eqb_eq in E0. subst o. rewrite I3, (G3 eq_refl). cbn [option_map]. eexists _, _. split; [reflexivity|]. now apply Hfin.
    - eexists _, _. split; [reflexivity|]. now apply Hfin.
  Qed.
  Lemma step_bad p used f0 q m f c o v m' f' : inv p f0 q m f -> assign_cell p used m f c o v = Done (true, m', f') -> good p used q (c, o, v).
  Proof.
    intros [I1 [I2 [I3 [I4 [I5 I6]]]]]. unfold assign_cell, good. cbn [fst snd]. destruct (existsb (Nat.eqb c) used) eqn:E; [discriminate|]. intro H.
    split; [intro X; apply used_false in X; congruence|]. split.
    - unfold assign_fixed in H. destruct p as [u|]; [|exact I]. simpl. destruct (Nat.ltb o u) eqn:L; [now apply Nat.ltb_lt | discriminate].
    - intros ->. rewrite I3 in H. destruct (given q c 0); [|reflexivity]. destruct (assign_fixed p f c 0 v) as [[f1 s1]| |]; discriminate.
  Qed.

  Lemma run_good p used f0 cells : forall q m f, inv p f0 q m f -> all_good p used q cells ->
    exists m' f', assign_cells p used m f cells = Done (map (fun _ => true) cells, m', f') /\ inv p f0 (q ++ cells) m' f'.
  Proof.
    induction cells as [|[[c o] v] cells IH]; intros q m f Hi Hg; cbn [assign_cells map].
    - exists m, f. rewrite app_nil_r. auto.
    - destruct Hg as [Hg Hr]. destruct (step p used f0 q m f c o v Hi Hg) as [m1 [f1 [E1 I1]]]. rewrite E1.
      destruct (IH _ _ _ I1 Hr) as [m2 [f2 [E2 I2]]]. rewrite E2. exists m2, f2. split; [reflexivity|]. now rewrite <- app_assoc in I2.
  Qed.
  Lemma run_bad p used f0 cells : forall q m f bs m' f', inv p f0 q m f -> assign_cells p used m f cells = Done (bs, m', f') -> Forall (eq true) bs ->
    all_good p used q cells.
  Proof.
    induction cells as [|[[c o] v] cells IH]; intros q m f bs m' f' Hi; cbn [assign_cells all_good]; [auto|].
    destruct (assign_cell p used m f c o v) as [[[b m1] f1]| |] eqn:E1; try discriminate.
    destruct (assign_cells p used m1 f1 cells) as [[[bs2 m2] f2]| |] eqn:E2; try discriminate. intros H Hb. injection H as <- <- <-. inversion Hb; subst.
    pose proof (step_bad _ _ _ _ _ _ _ _ _ _ _ Hi E1) as Hg. split; [exact Hg|].
    destruct (step p used f0 q m f c o v Hi Hg) as [m3 [f3 [E3 I3]]]. rewrite E1 in E3. injection E3 as <- <-. eapply IH; eassumption.
  Qed.

  Definition zeros cells : list nat := map (fun x => fst (fst x)) (filter (fun x => Nat.eqb (snd (fst x)) 0) cells).
  Lemma in_zeros cells c : In c (zeros cells) <-> exists v, In (c, 0, v) cells.
  Proof.
    unfold zeros. rewrite in_map_iff. split.
    - intros [[[c' o] v] [<- H]]. apply filter_In in H. destruct H as [H E]. apply Nat.eqb_eq in E. simpl in *. subst. eauto.
    - intros [v H]. exists (c, 0, v). split; [reflexivity|]. apply filter_In. auto.
  Qed.
  Lemma all_good_iff p used cells : forall q, all_good p used q cells <->
    (forall c o v, In (c, o, v) cells -> ~ In c used /\ row_ok p o) /\ NoDup (zeros cells) /\ (forall c, In c (zeros cells) -> given q c 0 = None).
  Proof.
    induction cells as [|[[c o] v] cells IH]; intro q.
    - simpl. split; [intros _|auto]. split; [intros ? ? ? []|]. split; [constructor | intros c []].
    - cbn [all_good]. rewrite IH. unfold good. cbn [fst snd].
      assert (Ez : zeros ((c, o, v) :: cells) = if Nat.eqb o 0 then c :: zeros cells else zeros cells) by (unfold zeros; simpl; now destruct (Nat.eqb o 0)).
      rewrite Ez. destruct (Nat.eqb o 0) eqn:E0.
      + apply Nat.eqb_eq in E0. subst o. split.
        * intros [[A1 [A2 A3]] [B1 [B2 B3]]]. split; [|split].
          -- intros c' o' v' [H|H]; [injection H as <- <- <-; auto | eapply B1; exact H].
          -- constructor; [|exact B2]. intro X. specialize (B3 c X). rewrite given_snoc, !Nat.eqb_refl in B3. discriminate.
          -- intros c' [<-|H]; [auto|]. specialize (B3 c' H). rewrite given_snoc in B3. destruct (Nat.eqb c c' && Nat.eqb 0 0); [discriminate | exact B3].
        * intros [B1 [B2 B3]]. inversion B2; subst. split; [split; [|split]|split; [|split]].
          -- apply (B1 c 0 v). now left.
          -- apply (B1 c 0 v). now left.
          -- intros _. apply B3. now left.
          -- intros c' o' v' H. apply (B1 c' o' v'). now right.
          -- assumption.
          -- intros c' H. rewrite given_snoc. destruct (Nat.eqb c c') eqn:Ec; simpl; [apply Nat.eqb_eq in Ec; subst; contradiction|]. apply B3. now right.
      + split.
        * intros [[A1 [A2 A3]] [B1 [B2 B3]]]. split; [|split; [exact B2|]].
          -- intros c' o' v' [H|H]; [injection H as <- <- <-; auto | eapply B1; exact H].
          -- intros c' H. specialize (B3 c' H). rewrite given_snoc, E0, andb_false_r in B3. exact B3.
        * intros [B1 [B2 B3]]. apply Nat.eqb_neq in E0. split; [split; [|split]|split; [|split; [exact B2|]]].
          -- apply (B1 c o v). now left.
          -- apply (B1 c o v). now left.
          -- intro X. contradiction.
          -- intros c' o' v' H. apply (B1 c' o' v'). now right.
          -- intros c' H. rewrite given_snoc. apply Nat.eqb_neq in E0. rewrite E0, andb_false_r. now apply B3.
  Qed.

  Lemma inv_init p f0 : inv p f0 [] [] f0.
  Proof.
    split; [constructor|]. split; [intro c; split; [intros [] | intros [o [v []]]]|]. split; [reflexivity|]. split; [intros c o; simpl; destruct o; split; congruence|].
    split; [intro; now left|]. intros c r. simpl. now destruct p.
  Qed.

  (** The lengths of the columns. *)
  Lemma size_spec p f0 q m f c n : inv p f0 q m f -> (assigned_size (find m c) = Some n <-> forall r, given q c r <> None <-> r < n).
  Proof.
    intros [I1 [I2 [I3 [I4 [I5 I6]]]]]. unfold assigned_size. set (a := snd (find m c)).
    assert (Ha : forall r, nth r a false = true <-> given q c r <> None) by (intro; apply I4). assert (He : ends_true a) by apply I5. clearbody a. split.
    - destruct (forallb (fun b => b) a) eqn:E; [|discriminate]. intro H. injection H as <-. rewrite forallb_forall in E. intro r. rewrite <- Ha. split.
      + intro H. destruct (Nat.lt_ge_cases r (length a)) as [L|L]; [exact L|]. rewrite nth_overflow in H by exact L. discriminate.
      + intro L. apply E. now apply nth_In.
    - intro H. assert (EL : length a = n).
      { destruct (Nat.lt_trichotomy (length a) n) as [L|[L|L]]; [|exact L|].
        - exfalso. apply H, Ha in L. rewrite nth_overflow in L by lia. discriminate.
        - exfalso. destruct He as [->|He]; [simpl in L; lia|]. apply Ha, H in He. lia. }
      assert (E : forallb (fun b => b) a = true).
      { apply forallb_forall. intros b Hb. apply (In_nth _ _ false) in Hb. destruct Hb as [r [L <-]]. apply Ha, H. lia. }
      rewrite E. now f_equal.
  Qed.

  Lemma common_size_spec (l : list (option nat)) : forall acc n, common_size acc l = Some (Some n) <->
    (match acc with Some k => k = n | None => l <> [] end /\ Forall (eq (Some n)) l).
  Proof.
    induction l as [|x l IH]; intros acc n; simpl.
    - destruct acc as [k|]; [split; [intro H; injection H as ->; auto | intros [-> _]; reflexivity] | split; [discriminate | intros [H _]; congruence]].
    - destruct x as [k|]; [|split; [discriminate | intros [_ H]; inversion H; discriminate]]. destruct acc as [k'|].
      + destruct (Nat.eqb k' k) eqn:E.
        * apply Nat.eqb_eq in E. subst k'. rewrite IH. split; [intros [-> H]; split; [reflexivity | constructor; auto] | intros [-> H]; inversion H; auto].
        * apply Nat.eqb_neq in E. split; [discriminate|]. intros [-> H]. inversion H; subst. congruence.
      + rewrite IH. split; [intros [-> H]; split; [discriminate | constructor; auto] | intros [_ H]; inversion H; subst; split; [congruence | assumption]].
  Qed.

  Lemma sizes_spec p f0 cells m f arrange n : inv p f0 cells m f -> (forall l, Permutation (arrange l) l) ->
    (common_size None (map (fun e => assigned_size (snd e)) (arrange m)) = Some (Some n) <-> rectangle cells n).
  Proof.
    intros Hi Hp. pose proof Hi as [I1 [I2 _]]. rewrite common_size_spec, Forall_map.
    assert (Hf : Forall (fun e => Some n = assigned_size (snd e)) (arrange m) <-> Forall (fun e => Some n = assigned_size (snd e)) m).
    { split; apply Permutation_Forall; [apply Hp | symmetry; apply Hp]. }
    rewrite Hf, Forall_forall. unfold rectangle.
    assert (Hne : map (fun e : nat * entry => assigned_size (snd e)) (arrange m) <> [] <-> cells <> []).
    { split; intros H E.
      - subst cells. assert (m = []). { destruct m as [|[c e] m]; [reflexivity|]. exfalso. destruct (proj1 (I2 c)) as [o [v []]]. now left. }
        subst m. assert (arrange [] = []) by (apply Permutation_nil; symmetry; apply Hp). now rewrite H0 in H.
      - apply map_eq_nil in E. pose proof (Hp m) as P. rewrite E in P. apply Permutation_nil in P. subst m. destruct cells as [|[[c o] v] cells]; [congruence|].
        apply (proj2 (I2 c)). exists o, v. now left. }
    rewrite Hne. split; intros [A B]; (split; [exact A|]).
    - intros c Hc r. rewrite given_in. apply (proj1 (size_spec p f0 cells m f c n Hi)). symmetry. apply (B (c, find m c)). apply in_find, I2, Hc.
    - intros [c e] H. simpl. rewrite <- (find_in m c e I1 H). symmetry. apply (size_spec p f0 cells m f c n Hi). intro r. rewrite <- given_in. apply B. apply I2. apply (in_map fst) in H. exact H.
  Qed.

  Lemma fold_set (c : nat) (v : V) (rows : list nat) : forall f c' r, fold_left (fun f r => set_cell f c r v) rows f c' r = if Nat.eqb c' c && existsb (Nat.eqb r) rows then Some v else f c' r.
  Proof.
    induction rows as [|x rows IH]; intros f c' r; simpl; [now rewrite andb_false_r|]. rewrite IH. unfold set_cell. destruct (Nat.eqb c' c), (Nat.eqb r x), (existsb (Nat.eqb r) rows); reflexivity.
  Qed.
  Lemma existsb_seq r a n : existsb (Nat.eqb r) (seq a n) = Nat.leb a r && Nat.ltb r (a + n).
  Proof.
    apply eq_true_iff_eq. rewrite used_false, in_seq, andb_true_iff, Nat.leb_le, Nat.ltb_lt. reflexivity.
  Qed.

  Lemma fill_spec usable n (g : nat -> option V) : n < usable -> forall (l : values V) used f, NoDup (map fst l) -> (forall c e, In (c, e) l -> exists v, g c = Some v /\ fst e = Some (Some v)) ->
    exists f', fill_columns (Keygen usable) n l used f = Done (used ++ map fst l, f') /\
      forall c r, f' c r = if existsb (Nat.eqb c) (map fst l) && (Nat.leb n r && Nat.ltb r usable) then g c else f c r.
  Proof.
    intro Hn. induction l as [|[c [d a]] l IH]; intros used f Hnd Hd; cbn [fill_columns map].
    - exists f. rewrite app_nil_r. auto.
    - inversion Hnd as [|x y N1 N2]; subst. destruct (Hd c (d, a) (or_introl eq_refl)) as [v [Gv Ed]]. simpl in Ed. subst d. cbn [fill_from_row]. rewrite (proj2 (Nat.ltb_lt _ _) Hn).
      destruct (IH (used ++ [c]) (fold_left (fun f r => set_cell f c r v) (seq n (usable - n)) f) N2) as [f' [E F]]; [intros c' e H; apply Hd; now right|].
      exists f'. rewrite E. split; [rewrite <- app_assoc; reflexivity|]. intros c' r. rewrite F, fold_set, existsb_seq. replace (n + (usable - n)) with usable by lia. cbn [fst existsb].
      destruct (Nat.eqb c' c) eqn:Ec; simpl; [|reflexivity]. apply Nat.eqb_eq in Ec. subst c'. destruct (existsb (Nat.eqb c) (map fst l)) eqn:X; [apply used_false in X; contradiction|]. simpl.
      now destruct (Nat.leb n r && Nat.ltb r usable).
  Qed.
  Lemma fill_refused usable n (l : values V) used f : usable <= n -> l <> [] -> (forall c e, In (c, e) l -> exists v, fst e = Some (Some v)) ->
    fill_columns (Keygen usable) n l used f = CheckFailed.
  Proof.
    intros Hn Hl Hd. destruct l as [|[c [d a]] l]; [congruence|]. destruct (Hd c (d, a) (or_introl eq_refl)) as [v E]. simpl in E. subst d. simpl. now rewrite (proj2 (Nat.ltb_ge _ _) Hn).
  Qed.

  Lemma table_good p used cells n : rectangle cells n -> fresh used cells -> first_rows_once cells -> (match p with Keygen u => n <= u | Proving => True end) -> all_good p used [] cells.
  Proof.
    intros [R0 R] F O Hp. apply all_good_iff. split; [|split; [exact O | reflexivity]]. intros c o v H. assert (T : in_table cells c) by (exists o, v; exact H). split; [now apply F|].
    assert (o < n) by (apply (R c T); eauto). destruct p as [u|]; simpl; [lia | exact I].
  Qed.
  Lemma entries p f0 cells m f n arrange : inv p f0 cells m f -> (forall l, Permutation (arrange l) l) -> rectangle cells n ->
    0 < n /\ NoDup (map fst (arrange m)) /\ (forall c, In c (map fst (arrange m)) <-> in_table cells c) /\
    (forall c e, In (c, e) (arrange m) -> exists v, given cells c 0 = Some v /\ fst e = Some (seen p v)) /\ arrange m <> [].
  Proof.
    intros [I1 [I2 [I3 _]]] Hp [R0 R].
    assert (Hn : 0 < n). { destruct cells as [|[[c o] v] cells]; [congruence|]. assert (o < n); [|lia]. apply (R c); [exists o, v; now left | exists v; now left]. }
    assert (Hk : forall c, In c (map fst (arrange m)) <-> in_table cells c).
    { intro c. rewrite <- I2. split; apply Permutation_in; [apply Permutation_map, Hp | symmetry; apply Permutation_map, Hp]. }
    split; [exact Hn|]. split; [apply (Permutation_NoDup (l := map fst m)); [symmetry; apply Permutation_map, Hp | exact I1]|]. split; [exact Hk|]. split.
    - intros c e H. assert (Hc : in_table cells c) by (apply Hk; apply (in_map fst) in H; exact H).
      assert (G : given cells c 0 <> None) by (apply given_in, (R c Hc); exact Hn). destruct (given cells c 0) as [v|] eqn:E; [|congruence]. exists v. split; [reflexivity|].
      assert (H' : In (c, e) m) by (eapply Permutation_in; [apply Hp | exact H]). rewrite <- (find_in m c e I1 H'), I3, E. reflexivity.
    - intro E. destruct cells as [|[[c o] v] cells]; [congruence|]. assert (X : In c (map fst (arrange m))) by (apply Hk; exists o, v; now left). rewrite E in X. destruct X.
  Qed.

  Section Run.
    Variables (arrange : values V -> values V) (used : list nat) (f : columns V) (cells : list (nat * nat * V)).
    Hypothesis Hp : forall l, Permutation (arrange l) l.

    Lemma table_done usable n : n < usable -> rectangle cells n -> fresh used cells -> first_rows_once cells ->
      exists used' f', assign_table (Keygen usable) arrange used f cells = Done (map (fun _ => true) cells, used', f') /\
        (forall c, In c used' <-> In c used \/ in_table cells c) /\ laid_out cells n usable f f'.
    Proof.
      intros Hn R F O. unfold assign_table.
      destruct (run_good (Keygen usable) used f cells [] [] f (inv_init _ _)) as [m [f1 [E1 I]]]; [eapply table_good; [exact R | exact F | exact O | simpl; lia]|].
      rewrite E1. cbn [app] in I. rewrite (proj2 (sizes_spec _ _ _ _ _ arrange n I Hp) R).
      destruct (entries _ _ _ _ _ n arrange I Hp R) as [H0 [N [K [D Ne]]]].
      destruct (fill_spec usable n (fun c => given cells c 0) Hn (arrange m) used f1 N) as [f2 [E2 F2]]; [exact D|]. rewrite E2. eexists _, _. split; [reflexivity|]. split.
      - intro c. rewrite in_app_iff, K. reflexivity.
      - destruct I as [_ [_ [_ [_ [_ I6]]]]]. assert (Hx : forall c, existsb (Nat.eqb c) (map fst (arrange m)) = true <-> in_table cells c) by (intro c; rewrite used_false; apply K).
        destruct R as [R0 R]. intros c r. split; [|split].
        + intros T L. assert (G : given cells c r <> None) by (apply given_in, (R c T), L). destruct (given cells c r) as [v|] eqn:E; [|congruence]. exists v. split; [reflexivity|].
          rewrite F2, (proj2 (Nat.leb_gt n r) L). rewrite andb_false_l, andb_false_r, I6, E. reflexivity.
        + intros T [L1 L2]. assert (G : given cells c 0 <> None) by (apply given_in, (R c T), H0). destruct (given cells c 0) as [v|] eqn:E; [|congruence]. exists v. split; [reflexivity|].
          rewrite F2, (proj2 (Hx c) T), (proj2 (Nat.leb_le n r) L1), (proj2 (Nat.ltb_lt r usable) L2). exact E.
        + intro X. rewrite F2. destruct (existsb (Nat.eqb c) (map fst (arrange m))) eqn:Y.
          * apply Hx in Y. assert (Lr : usable <= r) by (destruct (Nat.lt_ge_cases r usable); [exfalso; auto | assumption]). rewrite (proj2 (Nat.ltb_ge r usable) Lr), andb_false_r, andb_false_r.
            rewrite I6. destruct (given cells c r) eqn:G; [|reflexivity]. assert (r < n) by (apply (R c Y), given_in; congruence). lia.
          * simpl. rewrite I6. destruct (given cells c r) eqn:G; [|reflexivity]. exfalso. assert (T : in_table cells c) by (apply in_table_given; exists r; congruence). apply Hx in T. congruence.
    Qed.

    Lemma table_accepts usable bs used' f' : assign_table (Keygen usable) arrange used f cells = Done (bs, used', f') -> Forall (eq true) bs ->
      exists n, n < usable /\ rectangle cells n /\ fresh used cells /\ first_rows_once cells.
    Proof.
      unfold assign_table. destruct (assign_cells (Keygen usable) used [] f cells) as [[[bs1 m] f1]| |] eqn:E1; try discriminate.
      destruct (common_size None (map (fun e => assigned_size (snd e)) (arrange m))) as [[n|]|] eqn:E2; try discriminate.
      destruct (fill_columns (Keygen usable) n (arrange m) used f1) as [[u2 f2]| |] eqn:E3; try discriminate. intros H Hb. injection H as <- <- <-.
      pose proof (run_bad _ _ _ _ _ _ _ _ _ _ (inv_init _ f) E1 Hb) as G. destruct (run_good _ _ _ _ _ _ _ (inv_init _ f) G) as [m' [f'' [E4 I]]].
      rewrite E1 in E4. injection E4 as _ <- <-. cbn [app] in I. apply (sizes_spec _ _ _ _ _ arrange n I Hp) in E2.
      destruct (entries _ _ _ _ _ n arrange I Hp E2) as [H0 [N [K [D Ne]]]]. exists n. split; [|split; [exact E2|]].
      - destruct (Nat.lt_ge_cases n usable) as [L|L]; [exact L|]. rewrite (fill_refused usable n (arrange m) used f1 L Ne) in E3; [discriminate|]. intros c e X. destruct (D c e X) as [v [_ Y]]. exists v. exact Y.
      - apply all_good_iff in G. destruct G as [G1 [G2 _]]. split; [|exact G2]. intros c [o [v X]]. apply (G1 c o v X).
    Qed.

    Lemma full_table_refused usable : rectangle cells usable -> fresh used cells -> first_rows_once cells -> assign_table (Keygen usable) arrange used f cells = CheckFailed.
    Proof.
      intros R F O. unfold assign_table.
      destruct (run_good (Keygen usable) used f cells [] [] f (inv_init _ _)) as [m [f1 [E1 I]]]; [eapply table_good; [exact R | exact F | exact O | simpl; lia]|].
      rewrite E1. cbn [app] in I. rewrite (proj2 (sizes_spec _ _ _ _ _ arrange usable I Hp) R). destruct (entries _ _ _ _ _ usable arrange I Hp R) as [H0 [N [K [D Ne]]]].
      rewrite (fill_refused usable usable (arrange m) used f1 (le_n _) Ne); [reflexivity|]. intros c e X. destruct (D c e X) as [v [_ Y]]. exists v. exact Y.
    Qed.

    Lemma proving_reads_empty n : rectangle cells n -> fresh used cells -> first_rows_once cells -> assign_table Proving arrange used f cells = EmptyRead.
    Proof.
      intros R F O. unfold assign_table.
      destruct (run_good Proving used f cells [] [] f (inv_init _ _)) as [m [f1 [E1 I]]]; [eapply table_good; [exact R | exact F | exact O | simpl; exact Logic.I]|].
      rewrite E1. cbn [app] in I. rewrite (proj2 (sizes_spec _ _ _ _ _ arrange n I Hp) R). destruct (entries _ _ _ _ _ n arrange I Hp R) as [H0 [N [K [D Ne]]]].
      destruct (arrange m) as [|[c [d a]] l]; [congruence|]. destruct (D c (d, a) (or_introl eq_refl)) as [v [_ Y]]. simpl in Y. subst d. reflexivity.
    Qed.

    Lemma ragged_refused usable : (forall c o v, In (c, o, v) cells -> o < usable) -> fresh used cells -> first_rows_once cells -> (forall n, ~ rectangle cells n) ->
      assign_table (Keygen usable) arrange used f cells = CheckFailed.
    Proof.
      intros Hu F O R. unfold assign_table.
      assert (G : all_good (Keygen usable) used [] cells).
      { apply all_good_iff. split; [|split; [exact O | reflexivity]]. intros c o v H. split; [apply F; exists o, v; exact H | simpl; eapply Hu; exact H]. }
      destruct (run_good (Keygen usable) used f cells [] [] f (inv_init _ _) G) as [m [f1 [E1 I]]]. rewrite E1. cbn [app] in I.
      destruct (common_size None (map (fun e => assigned_size (snd e)) (arrange m))) as [[n|]|] eqn:E2; try reflexivity. exfalso. apply (R n). now apply (sizes_spec _ _ _ _ _ arrange n I Hp).
    Qed.

    (** A column of an earlier table is refused and nothing changes. *)
    Lemma reuse_refused p (m : values V) c o v : In c used -> assign_cell p used m f c o v = Done (false, m, f).
    Proof. intro H. unfold assign_cell. now rewrite (proj2 (used_false c used) H). Qed.
  End Run.

  Lemma neq_diverges {T} fuel (a b : option T) : value_neq fuel a b = None.
  Proof. induction fuel; [reflexivity | exact IHfuel]. Qed.
End Proofs.
