(** SlotInBiggestAdviceFirst, the rows left for constants, and that the order of the columns has no influence. *)
From Coq Require Import ZArith Lia List Bool Sorted Permutation.
From Verif Require Import BigIntModel BufferModel LayoutModel LayoutSpec LayoutProof LayoutProof2 LayoutProof3.
Import ListNotations.
Open Scope Z_scope.

Lemma total_rows_perm a b : Permutation a b -> total_rows a = total_rows b.
Proof.
  unfold total_rows. induction 1; simpl; try lia.
Qed.
Lemma StronglySorted_rev {A} (R : A -> A -> Prop) l : StronglySorted R l -> StronglySorted (fun a b => R b a) (rev l).
Proof.
  induction 1 as [|a l Hs IH Hf]; simpl; [constructor|].
  assert (G : forall m, StronglySorted (fun a b => R b a) m -> (forall x, In x m -> R a x) -> StronglySorted (fun a b => R b a) (m ++ [a])).
  { induction m as [|x m IHm]; intros Hm Hx; simpl; [repeat constructor|]. inversion Hm; subst. constructor.
    - apply IHm; [assumption | intros; apply Hx; now right].
    - rewrite Forall_forall in *. intros y Hy. apply in_app_or in Hy. destruct Hy as [Hy|[<-|[]]]; [auto | apply Hx; now left]. }
  apply G; [exact IH|]. intros x Hx. rewrite Forall_forall in Hf. apply Hf. now apply in_rev.
Qed.

Lemma combine_map_split {A B} (l : list (A * B)) : combine (map fst l) (map snd l) = l.
Proof. induction l as [|[a b] l IH]; simpl; congruence. Qed.

Lemma same_keys {A} (key : A -> nat) (all : list A) : NoDup (map key all) -> forall l m, incl l all -> incl m all -> map key m = map key l -> m = l.
Proof.
  intro Hnd. assert (Hinj : forall a b, In a all -> In b all -> key a = key b -> a = b).
  { induction all as [|x l IH]; intros a b Ha Hb E; [destruct Ha|]. simpl in Hnd. inversion Hnd as [|? ? Hx Hl]; subst.
    destruct Ha as [<-|Ha], Hb as [<-|Hb]; auto; exfalso; apply Hx; [rewrite E | rewrite <- E]; now apply in_map. }
  induction l as [|x l IH]; intros m Hl Hm E; destruct m as [|y m]; try discriminate; [reflexivity|].
  simpl in E. injection E as Ey E. f_equal.
  - apply Hinj; [apply Hm; now left | apply Hl; now left | exact Ey].
  - apply IH; [intros b Hb; apply Hl; now right | intros a Ha; apply Hm; now right | exact E].
Qed.

Section Biggest.
  Variables (arrange : nat -> list column -> list column) (sort1 : list shape -> list shape) (sort2 : list (Z * shape) -> list (Z * shape)).
  Hypothesis Har : forall i l, Permutation (arrange i l) l.
  Hypothesis H1 : sorts_by advice_area sort1.
  Hypothesis H2 : sorts_by (fun q => Z.of_nat (sh_index (snd q))) sort2.
  Variable shapes : list shape.
  Hypothesis Hidx : map sh_index shapes = seq 0 (length shapes).
  Hypothesis Hprop : Forall proper shapes.
  Hypothesis Htot : total_rows shapes < 2 ^ 31.

  (** The regions in the order in which they are placed, and in the original order. *)
  Lemma biggest_spec : exists order ca, slot_in arrange [] (rev (sort1 shapes)) = Some (order, ca) /\
    greedy order /\ StronglySorted (fun a b => advice_area b <= advice_area a) (map snd order) /\
    tracks ca order (total_rows shapes) /\
    slot_in_biggest_advice_first arrange sort1 sort2 shapes = Some (map fst (sort2 order), ca) /\
    map snd (sort2 order) = shapes /\ Permutation order (combine (map fst (sort2 order)) shapes).
  Proof.
    destruct (H1 shapes) as [P1 S1].
    assert (Pr : Permutation (rev (sort1 shapes)) shapes) by (transitivity (sort1 shapes); [apply Permutation_sym, Permutation_rev | exact P1]).
    destruct (slot_in_greedy arrange (rev (sort1 shapes)) Har) as [order [ca [E1 [E2 [E3 E4]]]]].
    { rewrite Forall_forall in *. intros x Hx. apply Hprop. eapply Permutation_in; eassumption. }
    { rewrite (total_rows_perm _ _ Pr). exact Htot. }
    rewrite (total_rows_perm _ _ Pr) in E4.
    destruct (H2 order) as [P2 S2].
    assert (Em : map snd (sort2 order) = shapes).
    { assert (Pm : Permutation (map snd (sort2 order)) shapes) by (transitivity (map snd order); [now apply Permutation_map | rewrite E2; exact Pr]).
      assert (Ek : map sh_index (map snd (sort2 order)) = map sh_index shapes).
      { rewrite Hidx. assert (El : length shapes = length (sort2 order)) by (rewrite <- (Permutation_length Pm); apply map_length).
        rewrite map_map, El. apply sorted_index_unique.
        - clear - S2. induction S2 as [|a l Hs IH Hf]; constructor; [exact IH|]. rewrite Forall_forall in *. intros x Hx. specialize (Hf x Hx). simpl in Hf. lia.
        - rewrite <- El, <- Hidx, <- map_map. now apply Permutation_map. }
      revert Ek Pm. generalize (map snd (sort2 order)). intros m Ek Pm.
      assert (Hnd : NoDup (map sh_index shapes)) by (rewrite Hidx; apply seq_NoDup).
      apply (same_keys sh_index shapes); try assumption; [intros x Hx; exact Hx | intros x Hx; eapply Permutation_in; eassumption]. }
    exists order, ca. split; [exact E1|]. split; [exact E3|]. split; [rewrite E2; now apply StronglySorted_rev|]. split; [exact E4|].
    split; [unfold slot_in_biggest_advice_first; now rewrite E1|]. split; [exact Em|].
    rewrite <- Em at 1. rewrite combine_map_split. now apply Permutation_sym.
  Qed.
End Biggest.

(** first_unassigned_row through [allocs]. *)
Lemma get_in {T} (d : T) m c t : NoDup (map fst m) -> In (c, t) m -> get d m c = t.
Proof.
  induction m as [|[k x] m IH]; intros Hn Hi; [destruct Hi|]. unfold get. simpl. simpl in Hn. inversion Hn; subst. destruct Hi as [E|Hi].
  - injection E as -> ->. now rewrite column_eqb_refl.
  - destruct (column_eqb k c) eqn:E; [|now apply IH]. apply column_eqb_eq in E. subst. exfalso. apply H1. change c with (fst (c, t)). now apply in_map.
Qed.
Lemma get_some {T} (d : T) m c : get d m c = d \/ In (c, get d m c) m.
Proof.
  induction m as [|[k x] m IH]; [now left|]. unfold get in *. simpl. destruct (column_eqb k c) eqn:E.
  - apply column_eqb_eq in E. subst. right. now left.
  - destruct IH as [IH|IH]; [now left | right; now right].
Qed.
Lemma fold_max_spec {A} (f : A -> Z) l : forall m, m <= fold_left (fun m e => Z.max m (f e)) l m /\
  (forall e, In e l -> f e <= fold_left (fun m e => Z.max m (f e)) l m) /\
  (fold_left (fun m e => Z.max m (f e)) l m = m \/ exists e, In e l /\ fold_left (fun m e => Z.max m (f e)) l m = f e).
Proof.
  induction l as [|x l IH]; intro m; simpl; [split; [lia|]; split; [intros e [] | now left]|].
  destruct (IH (Z.max m (f x))) as [A1 [A2 A3]]. split; [lia|]. split.
  - intros e [<-|He]; [lia | now apply A2].
  - destruct A3 as [A3|[e [He A3]]]; [|right; eauto]. rewrite A3. destruct (Z.max_spec m (f x)) as [[_ ->]|[_ ->]]; [right; exists x; auto | now left].
Qed.
Lemma first_unassigned_spec ca : NoDup (map fst ca) ->
  0 <= first_unassigned_row ca /\ (forall c, unbounded_start (allocs ca c) <= first_unassigned_row ca) /\
  (first_unassigned_row ca = 0 \/ exists c, first_unassigned_row ca = unbounded_start (allocs ca c)).
Proof.
  intro Hk. unfold first_unassigned_row. destruct (fold_max_spec (fun e : column * list (Z * Z) => unbounded_start (snd e)) ca 0) as [A1 [A2 A3]].
  split; [exact A1|]. split.
  - intro c. unfold allocs. destruct (get_some [] ca c) as [E|E]; [rewrite E; exact A1|]. exact (A2 _ E).
  - destruct A3 as [A3|[[c t] [He A3]]]; [now left|]. right. exists c. rewrite A3. unfold allocs. now rewrite (get_in [] ca c t Hk He).
Qed.

Lemma unbounded_in l top : well_formed l top -> top < 2 ^ 32 -> l <> [] -> exists s n, In (s, n) l /\ unbounded_start l = s + n /\ forall s' n', In (s', n') l -> s' <= s.
Proof.
  intros [Hs Hw] Ht Hne. unfold unbounded_start. destruct (rev l) as [|[s n] r] eqn:E; [apply (f_equal (@rev _)) in E; rewrite rev_involutive in E; contradiction|].
  assert (Hi : In (s, n) l) by (apply in_rev; rewrite E; now left).
  exists s, n. split; [exact Hi|]. split; [unfold a_end; simpl; apply trunc_small; specialize (Hw _ _ Hi); lia|].
  intros s' n' Hi'. apply StronglySorted_rev in Hs. rewrite E in Hs. inversion Hs as [|? ? _ Hf]; subst. rewrite Forall_forall in Hf.
  apply in_rev in Hi'. rewrite E in Hi'. destruct Hi' as [X|X]; [injection X; lia|]. specialize (Hf _ X). simpl in Hf. lia.
Qed.

(** Sorted lists with the same elements. *)
Lemma sorted_ext (l1 : list (Z * Z)) : forall l2, StronglySorted (fun a b => fst a < fst b) l1 -> StronglySorted (fun a b => fst a < fst b) l2 ->
  (forall a, In a l1 <-> In a l2) -> l1 = l2.
Proof.
  induction l1 as [|a l1 IH]; intros l2 H1 H2 H.
  - destruct l2 as [|b l2]; [reflexivity|]. exfalso. apply (proj2 (H b)). now left.
  - destruct l2 as [|b l2]; [exfalso; apply (proj1 (H a)); now left|].
    inversion H1 as [|? ? S1 F1]; subst. inversion H2 as [|? ? S2 F2]; subst. rewrite Forall_forall in F1, F2.
    assert (a = b).
    { destruct (proj1 (H a) (or_introl eq_refl)) as [X|X]; [congruence|]. destruct (proj2 (H b) (or_introl eq_refl)) as [Y|Y]; [congruence|].
      specialize (F1 _ Y). specialize (F2 _ X). lia. }
    subst b. f_equal. apply IH; try assumption. intro x. split; intro Hx.
    + destruct (proj1 (H x) (or_intror Hx)) as [<-|X]; [specialize (F1 _ Hx); lia | exact X].
    + destruct (proj2 (H x) (or_intror Hx)) as [<-|X]; [specialize (F2 _ Hx); lia | exact X].
Qed.

Lemma tracks_same ca1 ca2 l top1 top2 : tracks ca1 l top1 -> tracks ca2 l top2 ->
  (forall c, allocs ca1 c = allocs ca2 c) /\ first_unassigned_row ca1 = first_unassigned_row ca2.
Proof.
  intros [K1 T1] [K2 T2]. assert (E : forall c, allocs ca1 c = allocs ca2 c).
  { intro c. destruct (T1 c) as [[S1 _] I1]. destruct (T2 c) as [[S2 _] I2]. apply sorted_ext; [exact S1 | exact S2|]. intro a. rewrite I1, I2. reflexivity. }
  split; [exact E|]. destruct (first_unassigned_spec ca1 K1) as [A1 [A2 A3]]. destruct (first_unassigned_spec ca2 K2) as [B1 [B2 B3]].
  apply Z.le_antisymm.
  - destruct A3 as [->|[c ->]]; [exact B1 | rewrite E; apply B2].
  - destruct B3 as [->|[c ->]]; [exact A1 | rewrite <- E; apply A2].
Qed.

(** first_unassigned_row is the end of the last region. *)
Lemma first_unassigned_end ca l top : tracks ca l top -> greedy l -> Forall (fun q => proper (snd q)) l -> top < 2 ^ 32 -> forall r, 0 <= r ->
  (r < first_unassigned_row ca <-> exists q, In q l /\ sh_columns (snd q) <> [] /\ r < fst q + sh_rows (snd q)).
Proof.
  intros [K T] G Hp Ht r Hr. destruct (first_unassigned_spec ca K) as [A1 [A2 A3]]. split.
  - intro H. destruct A3 as [A3|[c A3]]; [lia|]. destruct (T c) as [W I]. destruct (allocs ca c) as [|a0 al] eqn:Ea; [unfold unbounded_start in A3; simpl in A3; lia|].
    destruct (unbounded_in _ top W Ht ltac:(discriminate)) as [s [n [Hi [E _]]]]. apply I in Hi. destruct Hi as [q [Hq [Hc X]]]. injection X as -> ->.
    exists q. split; [exact Hq|]. split; [intro Y; rewrite Y in Hc; destruct Hc | lia].
  - intros [q [Hq [Hc Hlt]]]. destruct (sh_columns (snd q)) as [|c cs] eqn:Ec; [contradiction|]. clear Hc. destruct (T c) as [W I].
    assert (Hi : In (fst q, sh_rows (snd q)) (allocs ca c)) by (apply I; exists q; split; [exact Hq|]; split; [rewrite Ec; now left | reflexivity]).
    destruct (unbounded_in _ top W Ht ltac:(intro X; rewrite X in Hi; destruct Hi)) as [s [n [Hi' [E Hmax]]]].
    specialize (A2 c). specialize (Hmax _ _ Hi). apply I in Hi' as Hi''. destruct Hi'' as [q' [Hq' [Hc' X]]]. injection X as -> ->.
    destruct (In_nth_error _ _ Hq) as [i Hni]. destruct (In_nth_error _ _ Hq') as [j Hnj].
    destruct (Nat.eq_dec i j) as [->|Hij]; [rewrite Hni in Hnj; injection Hnj as <-; lia|].
    destruct (greedy_apart l G i j q q' Hni Hnj Hij c) as [X|X]; [rewrite Ec; now left | exact Hc' | |].
    + rewrite Forall_forall in Hp. destruct (Hp q' Hq') as [_ [Hr' _]]. lia.
    + rewrite Forall_forall in Hp. destruct (Hp q' Hq') as [_ [Hr' Hpos]].
      assert (0 < sh_rows (snd q')) by (apply Hpos; intro Y; rewrite Y in Hc'; destruct Hc'). lia.
Qed.

Lemma rows_of_in i r : In r (rows_of i) <-> exists e, snd i = Some e /\ fst i <= r < e.
Proof.
  unfold rows_of. destruct (snd i) as [e|]; [|split; [intros [] | intros [e [X _]]; discriminate]].
  rewrite in_map_iff. split.
  - intros [k [<- Hk]]. apply in_seq in Hk. exists e. split; [reflexivity | lia].
  - intros [e' [X Hr]]. injection X as <-. exists (Z.to_nat (r - fst i)). split; [lia|]. apply in_seq. lia.
Qed.
Lemma NoDup_map_inj {A B} (f : A -> B) l : (forall a b, In a l -> In b l -> f a = f b -> a = b) -> NoDup l -> NoDup (map f l).
Proof.
  intros Hf. induction 1 as [|a l Ha Hn IH]; simpl; constructor.
  - intro X. apply in_map_iff in X. destruct X as [b [E Hb]]. apply Ha. rewrite <- (Hf b a); auto; [now right | now left].
  - apply IH. intros x y Hx Hy. apply Hf; now right.
Qed.
Lemma NoDup_app_intro {A} (l1 l2 : list A) : NoDup l1 -> NoDup l2 -> (forall x, In x l1 -> ~ In x l2) -> NoDup (l1 ++ l2).
Proof.
  induction 1 as [|a l1 Ha Hn IH]; intros H2 Hd; simpl; [exact H2|]. constructor.
  - intro X. apply in_app_or in X. destruct X as [X|X]; [contradiction | apply (Hd a); [now left | exact X]].
  - apply IH; [exact H2|]. intros x Hx. apply Hd. now right.
Qed.
Lemma rows_nodup l : StronglySorted before l -> NoDup (flat_map rows_of l).
Proof.
  induction 1 as [|i l Hs IH Hf]; simpl; [constructor|]. apply NoDup_app_intro.
  - unfold rows_of. destruct (snd i); [|constructor]. apply NoDup_map_inj; [intros; lia | apply seq_NoDup].
  - exact IH.
  - intros r Hr Hr'. apply rows_of_in in Hr. destruct Hr as [e [He Hr]]. apply in_flat_map in Hr'. destruct Hr' as [j [Hj Hr']].
    rewrite Forall_forall in Hf. destruct (Hf j Hj) as [e' [He' Hlt]]. apply rows_of_in in Hr'. destruct Hr' as [e'' [_ Hr']].
    rewrite He in He'. injection He' as <-. lia.
Qed.

(** The positions for constants: exactly the free rows of the constants columns, once each. *)
Lemma positions_spec ca top constants : (forall c, well_formed (allocs ca c) top) -> top < 2 ^ 32 -> NoDup constants ->
  NoDup (constant_positions ca constants) /\
  forall cc r, In (cc, r) (constant_positions ca constants) <-> In cc constants /\ 0 <= r < first_unassigned_row ca /\ ~ busy (allocs ca (Fixed cc)) r.
Proof.
  intros W Ht Hn. unfold constant_positions. set (F := first_unassigned_row ca). split.
  - induction Hn as [|cc l Hcc Hn IH]; simpl; [constructor|]. apply NoDup_app_intro; [|exact IH|].
    + apply NoDup_map_inj; [intros a b _ _ X; now injection X|]. apply rows_nodup.
      apply (free_from_spec top (allocs ca (Fixed cc)) Ht (W _) 0 (Some F) ltac:(lia)).
    + intros [c r] Hx Hy. apply in_map_iff in Hx. destruct Hx as [r' [X _]]. injection X as <- _. apply in_flat_map in Hy. destruct Hy as [c' [Hc' Hy]].
      apply in_map_iff in Hy. destruct Hy as [r'' [Y _]]. injection Y as -> _. contradiction.
  - intros cc r. rewrite in_flat_map.
    assert (Hrow : In r (flat_map rows_of (free_intervals (allocs ca (Fixed cc)) 0 (Some F))) <-> 0 <= r < F /\ ~ busy (allocs ca (Fixed cc)) r).
    { unfold free_intervals. destruct (free_from_spec top (allocs ca (Fixed cc)) Ht (W _) 0 (Some F) ltac:(lia)) as [A1 [A2 _]].
      rewrite in_flat_map. split.
      - intros [i [Hi Hr]]. apply rows_of_in in Hr. destruct Hr as [e [He Hr]]. destruct (proj1 (A1 r)) as [B1 [B2 B3]]; [exists i; split; [exact Hi|]; unfold inside; rewrite He; lia|].
        simpl in B2. split; [lia | exact B3].
      - intros [Hr Hb]. destruct (proj2 (A1 r)) as [i [Hi [Ha Hb']]]; [split; [lia|]; split; [simpl; lia | exact Hb]|].
        exists i. split; [exact Hi|]. apply rows_of_in. destruct (snd i) as [e|] eqn:E; [exists e; split; [reflexivity | lia]|].
        destruct (A2 i Hi) as [_ [_ X]]. rewrite E in X. discriminate. }
    split.
    + intros [c [Hc Hx]]. apply in_map_iff in Hx. destruct Hx as [r' [X Hr']]. injection X as -> ->. split; [exact Hc|]. now apply Hrow.
    + intros [Hc Hr]. exists cc. split; [exact Hc|]. apply in_map_iff. exists r. split; [reflexivity|]. now apply Hrow.
Qed.
