(** SlotIn and SlotInBiggestAdviceFirst. *)
From Coq Require Import ZArith Lia List Bool Sorted Permutation.
From Verif Require Import BigIntModel BufferModel LayoutModel LayoutSpec LayoutProof LayoutProof2.
Import ListNotations.
Open Scope Z_scope.

Lemma put_keys {T} (m : list (column * T)) c t : NoDup (map fst m) -> NoDup (map fst (put m c t)).
Proof.
  intro H. unfold put. cbn [map]. constructor.
  - simpl. intro Hi. apply in_map_iff in Hi. destruct Hi as [e [He Hi]]. apply filter_In in Hi. destruct Hi as [_ Hi].
    rewrite He, column_eqb_refl in Hi. discriminate.
  - induction m as [|e m IH]; [constructor|]. cbn [map] in H. inversion H; subst. simpl. destruct (negb (column_eqb (fst e) c)); [|auto].
    simpl. constructor; [|auto]. intro Hi. apply in_map_iff in Hi. destruct Hi as [e' [He' Hi]]. apply filter_In in Hi. apply H2.
    rewrite <- He'. apply in_map. apply Hi.
Qed.

Lemma first_fit_keys ca len : NoDup (map fst ca) -> forall cols start slack r ca', first_fit ca cols len start slack = Fit r ca' -> NoDup (map fst ca').
Proof.
  intro Hk. induction cols as [|c rem IH]; intros start slack r ca'; cbn [first_fit].
  - intro H. injection H as _ <-. exact Hk.
  - set (fin := option_map _ slack). generalize (free_intervals (allocs ca c) start fin). intro sp. clearbody fin.
    induction sp as [|[s e] more IHs]; cbn [try_spaces]; [discriminate|].
    destruct (match slack with Some a => _ | None => false end); [discriminate|].
    destruct (match option_map _ e with Some b => 0 <=? b | None => true end); [|exact IHs].
    destruct (first_fit ca rem len s _) as [row ca1| |] eqn:E; [|exact IHs|discriminate].
    destruct (match fin with Some f => _ | None => false end); [discriminate|]. intro H. injection H as _ <-.
    apply put_keys. now apply IH in E.
Qed.

(** The allocations are those of the placed regions. *)
Definition tracks (ca : circuit) (placed : list (Z * shape)) (top : Z) : Prop :=
  NoDup (map fst ca) /\
  forall c, well_formed (allocs ca c) top /\
    forall a, In a (allocs ca c) <-> exists q, In q placed /\ In c (sh_columns (snd q)) /\ a = (fst q, sh_rows (snd q)).

Lemma tracks_busy ca placed top c : tracks ca placed top -> forall r,
  busy (allocs ca c) r <-> exists q, In q placed /\ In c (sh_columns (snd q)) /\ fst q <= r < fst q + sh_rows (snd q).
Proof.
  intros [_ H] r. destruct (H c) as [_ Hin]. unfold busy. split.
  - intros [s [n [Hi Hr]]]. apply Hin in Hi. destruct Hi as [q [Hq [Hc E]]]. injection E as -> ->. eauto.
  - intros [q [Hq [Hc Hr]]]. exists (fst q), (sh_rows (snd q)). split; [|exact Hr]. apply Hin. eauto.
Qed.

Lemma room_apart ca placed top sh r : tracks ca placed top -> Forall (fun q => proper (snd q)) placed -> proper sh ->
  forall cols, Permutation cols (sh_columns sh) -> room ca cols (sh_rows sh) r <-> forall q, In q placed -> apart (r, sh) q.
Proof.
  intros Ht Hp [_ [Hr Hpos]] cols Hperm. rewrite Forall_forall in Hp. split.
  - intros H q Hq c Hc1 Hc2. simpl in *. destruct (Hp q Hq) as [_ [Hq1 Hq2]].
    assert (0 < sh_rows sh) by (apply Hpos; intro X; rewrite X in Hc1; destruct Hc1).
    assert (0 < sh_rows (snd q)) by (apply Hq2; intro X; rewrite X in Hc2; destruct Hc2).
    destruct (Z_le_dec (r + sh_rows sh) (fst q)); [now left|]. destruct (Z_le_dec (fst q + sh_rows (snd q)) r); [now right|]. exfalso.
    apply (H c (Z.max r (fst q))); [eapply Permutation_in; [apply Permutation_sym; exact Hperm | exact Hc1] | lia|].
    apply (tracks_busy ca placed top c Ht). exists q. split; [exact Hq|]. split; [exact Hc2 | lia].
  - intros H c x Hc Hx Hb. apply (tracks_busy ca placed top c Ht) in Hb. destruct Hb as [q [Hq [Hc2 Hr2]]].
    destruct (H q Hq c) as [X|X]; simpl in *; [eapply Permutation_in; eassumption | exact Hc2 | lia | lia].
Qed.

Lemma slot_in_spec arrange (Har : forall i l, Permutation (arrange i l) l) : forall shapes ca placed top,
  tracks ca placed top -> Forall (fun q => proper (snd q)) placed -> Forall proper shapes -> 0 <= top -> top + total_rows shapes < 2 ^ 31 ->
  exists l ca', slot_in arrange ca shapes = Some (l, ca') /\ map snd l = shapes /\ tracks ca' (placed ++ l) (top + total_rows shapes) /\
    forall pre q post, l = pre ++ q :: post -> earliest (placed ++ pre) (snd q) (fst q).
Proof.
  induction shapes as [|sh rest IH]; intros ca placed top Ht Hp Hs Htop Hb; cbn [slot_in].
  - exists [], ca. split; [reflexivity|]. split; [reflexivity|]. simpl. rewrite app_nil_r, Z.add_0_r. split; [exact Ht|].
    intros pre q post H. destruct pre; discriminate.
  - inversion Hs as [|? ? Hsh Hrest]; subst. pose proof Hsh as [Hnd [Hr0 Hrp]]. cbn [total_rows fold_right] in Hb. fold (total_rows rest) in Hb.
    assert (Hrt : 0 <= total_rows rest).
    { clear - Hrest. induction Hrest as [|x l Hx _ IH]; simpl; [lia|]. fold (total_rows l). destruct Hx as [_ [Hx _]]. lia. }
    set (cols := arrange (sh_index sh) (sh_columns sh)).
    assert (Hperm : Permutation cols (sh_columns sh)) by apply Har.
    pose proof (first_fit_spec ca top (sh_rows sh) cols 0 None) as F.
    assert (Hne : cols <> [] -> sh_columns sh <> []).
    { intros X Y. apply X. rewrite Y in Hperm. now apply Permutation_sym, Permutation_nil in Hperm. }
    specialize (F ltac:(eapply Permutation_NoDup; [apply Permutation_sym; exact Hperm | exact Hnd]) ltac:(auto)
      ltac:(intros c _; apply (proj2 Ht c)) ltac:(lia) Htop Hr0 ltac:(lia) ltac:(discriminate)).
    destruct (first_fit ca cols (sh_rows sh) 0 None) as [r ca1| |] eqn:EF; [|destruct F as [s [X _]]; discriminate | destruct F].
    destruct F as [F1 [_ [F3 [F4 F5]]]].
    assert (Hrle : r <= top).
    { destruct (Z_le_dec r top); [assumption|]. exfalso. apply (F4 top); [lia|]. intros c x Hc Hx [s [n' [Hin Hbz]]].
      destruct (proj2 Ht c) as [[_ Hw] _]. specialize (Hw _ _ Hin). lia. }
    assert (Ht1 : tracks ca1 (placed ++ [(r, sh)]) (top + sh_rows sh)).
    { split; [eapply first_fit_keys; [apply Ht | exact EF]|]. intro c. destruct (proj2 Ht c) as [[Hw1 Hw2] Hin]. destruct (F5 c) as [U1 U2].
      destruct (in_dec column_dec c cols) as [Hc|Hc].
      - rewrite (U1 Hc). assert (Hc' : In c (sh_columns sh)) by (eapply Permutation_in; eassumption).
        assert (Hpos : 0 < sh_rows sh) by (apply Hrp; intro X; rewrite X in Hc'; destruct Hc').
        assert (Hfs : forall s n, In (s, n) (allocs ca c) -> s <> r).
        { apply (free_start _ top r (sh_rows sh)); [now split | exact Hpos|]. intros x Hx. now apply F3. }
        split.
        + pose proof (a_insert_wf (r, sh_rows sh) (allocs ca c) top (conj Hw1 Hw2) Hfs F1 Hpos) as [W1 W2]. split; [exact W1|].
          intros s n Hi. specialize (W2 s n Hi). simpl in W2. lia.
        + intro a. rewrite in_a_insert by exact Hfs. split.
          * intros [->|Hi]; [exists (r, sh); split; [apply in_or_app; right; now left | split; [exact Hc' | reflexivity]]|].
            apply Hin in Hi. destruct Hi as [q [Hq X]]. exists q. split; [apply in_or_app; now left | exact X].
          * intros [q [Hq [Hcq E]]]. apply in_app_or in Hq. destruct Hq as [Hq|[<-|[]]]; [right; apply Hin; eauto | left; exact E].
      - rewrite (U2 Hc). assert (Hc' : ~ In c (sh_columns sh)) by (intro X; apply Hc; eapply Permutation_in; [apply Permutation_sym; exact Hperm | exact X]).
        split; [split; [exact Hw1|]; intros s n Hi; specialize (Hw2 s n Hi); lia|]. intro a. rewrite Hin. split.
        + intros [q [Hq X]]. exists q. split; [apply in_or_app; now left | exact X].
        + intros [q [Hq [Hcq E]]]. apply in_app_or in Hq. destruct Hq as [Hq|[<-|[]]]; [eauto | contradiction]. }
    destruct (IH ca1 (placed ++ [(r, sh)]) (top + sh_rows sh) Ht1) as [l [ca' [E1 [E2 [E3 E4]]]]]; try assumption; try lia.
    { apply Forall_app. split; [exact Hp | constructor; [exact Hsh | constructor]]. }
    rewrite E1. exists ((r, sh) :: l), ca'. split; [reflexivity|]. split; [simpl; now rewrite E2|]. split.
    { cbn [total_rows fold_right]. fold (total_rows rest). rewrite Z.add_assoc. rewrite <- app_assoc in E3. exact E3. }
    intros pre q post H. destruct pre as [|q0 pre]; cbn [app] in H.
    + injection H as <- <-. rewrite app_nil_r. simpl. split; [lia|].
      pose proof (room_apart ca placed top sh) as RA. split.
      * apply (RA r Ht Hp Hsh cols Hperm). exact F3.
      * intros r' Hr' Hap. destruct (Z_le_dec r r'); [assumption|]. exfalso. apply (F4 r'); [lia|]. now apply (RA r' Ht Hp Hsh cols Hperm).
    + injection H as <- H. specialize (E4 pre q post H). rewrite <- app_assoc in E4. exact E4.
Qed.

Lemma tracks_nil : tracks [] [] 0.
Proof.
  split; [constructor|]. intro c. split; [split; [constructor | intros s n []]|]. intro a. split; [intros [] | intros [q [[] _]]].
Qed.

Lemma greedy_apart l : greedy l -> forall i j a b, nth_error l i = Some a -> nth_error l j = Some b -> i <> j -> apart a b.
Proof.
  intro G. assert (H : forall i j a b, (i < j)%nat -> nth_error l i = Some a -> nth_error l j = Some b -> apart b a).
  { intros i j a b Hij Ha Hb. apply nth_error_split in Hb. destruct Hb as [pre [post [E Hlen]]]. destruct (G pre b post E) as [_ [Hap _]].
    assert (Hin : In a pre).
    { rewrite E, nth_error_app1 in Ha by lia. eapply nth_error_In; exact Ha. }
    specialize (Hap a Hin). destruct b. exact Hap. }
  intros i j a b Ha Hb Hij c Hca Hcb. destruct (Nat.lt_ge_cases i j) as [L|L].
  - destruct (H i j a b L Ha Hb c Hcb Hca); tauto.
  - destruct (H j i b a ltac:(lia) Hb Ha c Hca Hcb); tauto.
Qed.

(** A greedy placement is determined by the shapes, as sets of columns. *)
Lemma greedy_unique l1 : forall l2, greedy l1 -> greedy l2 -> map snd l1 = map snd l2 -> l1 = l2.
Proof.
  induction l1 as [|q1 l1 IH] using rev_ind; intros l2 G1 G2 E.
  - destruct l2; [reflexivity | discriminate].
  - destruct l2 as [|q2 l2 _] using rev_ind; [rewrite map_app in E; destruct (map snd l1); discriminate|].
    rewrite !map_app in E. apply app_inj_tail in E. destruct E as [E Eq].
    assert (El : l1 = l2).
    { apply IH; [| |exact E]; intros pre q post H; [apply (G1 pre q (post ++ [q1])) | apply (G2 pre q (post ++ [q2]))]; rewrite H, <- app_assoc; reflexivity. }
    subst l2. f_equal. destruct (G1 l1 q1 [] eq_refl) as [A1 [A2 A3]]. destruct (G2 l1 q2 [] eq_refl) as [B1 [B2 B3]].
    rewrite Eq in A2, A3. assert (fst q1 = fst q2) by (apply Z.le_antisymm; [apply A3 | apply B3]; assumption).
    destruct q1, q2; simpl in *; congruence.
Qed.

Lemma slot_in_greedy arrange shapes : (forall i l, Permutation (arrange i l) l) -> Forall proper shapes -> total_rows shapes < 2 ^ 31 ->
  exists l ca, slot_in arrange [] shapes = Some (l, ca) /\ map snd l = shapes /\ greedy l /\ tracks ca l (total_rows shapes).
Proof.
  intros Har Hp Ht. destruct (slot_in_spec arrange Har shapes [] [] 0 tracks_nil) as [l [ca [E1 [E2 [E3 E4]]]]]; auto; try lia.
  exists l, ca. split; [exact E1|]. split; [exact E2|]. split; [exact E4 | exact E3].
Qed.

(** Un-sorting: a list sorted by the index that permutes regions 0 .. n - 1. *)
Lemma sorted_index_unique {A} (key : A -> nat) l : StronglySorted (fun a b => (key a <= key b)%nat) l ->
  Permutation (map key l) (seq 0 (length l)) -> map key l = seq 0 (length l).
Proof.
  intros Hs Hp. assert (Hk : StronglySorted le (map key l)).
  { clear Hp. induction Hs as [|a l Hs IH Hf]; simpl; constructor; [exact IH|]. rewrite Forall_forall in *. intros k Hk.
    apply in_map_iff in Hk. destruct Hk as [b [<- Hb]]. auto. }
  assert (Hq : StronglySorted le (seq 0 (length l))).
  { generalize 0%nat. generalize (length l). clear. intro n. induction n; intro s; simpl; constructor; [apply IHn|].
    rewrite Forall_forall. intros k Hk. apply in_seq in Hk. lia. }
  revert Hk Hq Hp. generalize (map key l) (seq 0 (length l)). clear. intros l1. induction l1 as [|a l1 IH]; intros l2 H1 H2 Hp.
  - now apply Permutation_nil in Hp.
  - destruct l2 as [|b l2]; [apply Permutation_sym, Permutation_nil in Hp; discriminate|].
    inversion H1 as [|? ? S1 F1]; subst. inversion H2 as [|? ? S2 F2]; subst. rewrite Forall_forall in F1, F2.
    assert (a = b).
    { assert (Ha : In a (b :: l2)) by (eapply Permutation_in; [exact Hp | now left]).
      assert (Hb : In b (a :: l1)) by (eapply Permutation_in; [apply Permutation_sym; exact Hp | now left]).
      destruct Ha as [Ha|Ha], Hb as [Hb|Hb]; try congruence. specialize (F1 _ Hb). specialize (F2 _ Ha). lia. }
    subst b. f_equal. apply IH; try assumption. eapply Permutation_cons_inv; exact Hp.
Qed.
