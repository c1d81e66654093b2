From Coq Require Import ZArith Lia List Bool Sorted Permutation.
From Verif Require Import BigIntModel BufferModel LayoutModel LayoutSpec.
Import ListNotations.
Open Scope Z_scope.

Lemma column_eqb_eq a b : column_eqb a b = true <-> a = b.
Proof. destruct a, b; simpl; rewrite ?Nat.eqb_eq; split; intro H; try discriminate; try (now subst); try (now injection H). Qed.
Lemma column_eqb_refl a : column_eqb a a = true.
Proof. now apply column_eqb_eq. Qed.
Lemma column_eqb_neq a b : column_eqb a b = false <-> a <> b.
Proof. rewrite <- column_eqb_eq. destruct (column_eqb a b); split; congruence. Qed.
Lemma column_dec (a b : column) : {a = b} + {a <> b}.
Proof. destruct (column_eqb a b) eqn:E; [left; now apply column_eqb_eq | right; now apply column_eqb_neq]. Qed.

Lemma get_put_same {T} (d : T) m c t : get d (put m c t) c = t.
Proof. unfold get, put. simpl. now rewrite column_eqb_refl. Qed.
Lemma get_put_other {T} (d : T) m c c' t : c <> c' -> get d (put m c t) c' = get d m c'.
Proof.
  intro H. unfold get, put. simpl. apply column_eqb_neq in H as H'. rewrite H'. clear H'.
  induction m as [|[k x] m IH]; [reflexivity|]. simpl. destruct (column_eqb k c) eqn:E; simpl.
  - apply column_eqb_eq in E. subst. apply column_eqb_neq in H as H'. rewrite H'. exact IH.
  - destruct (column_eqb k c'); [reflexivity | exact IH].
Qed.

Lemma trunc_small w x : 0 <= x < 2 ^ w -> trunc w x = x.
Proof. intro. unfold trunc. now apply Z.mod_small. Qed.

Lemma busy_cons a l r : busy (a :: l) r <-> (fst a <= r < fst a + snd a) \/ busy l r.
Proof.
  unfold busy. split.
  - intros [s [n [[H|H] Hr]]]; [left; subst; exact Hr | right; eauto].
  - intros [H|[s [n [H Hr]]]]; [exists (fst a), (snd a); split; [left; now destruct a | exact H] | exists s, n; split; [now right | exact Hr]].
Qed.
Lemma busy_nil r : ~ busy [] r. Proof. intros [s [n [[] _]]]. Qed.

Definition before (i j : Z * option Z) : Prop := exists e, snd i = Some e /\ e < fst j.
Definition below (fin : option Z) (r : Z) : Prop := match fin with None => True | Some e => r < e end.

Lemma wf_tail a l top : well_formed (a :: l) top -> well_formed l top.
Proof. intros [H H']. inversion H; subst. split; [assumption|]. intros s n Hi. apply H'. now right. Qed.

Lemma free_from_spec top l : top < 2 ^ 32 -> well_formed l top -> forall row fin, 0 <= row ->
  (forall r, (exists i, In i (free_from l row fin) /\ inside i r) <-> row <= r /\ below fin r /\ ~ busy l r) /\
  (forall i, In i (free_from l row fin) -> row <= fst i <= Z.max row top /\ below fin (fst i) /\
     match snd i with None => fin = None | Some e => fst i < e /\ (fin = Some e \/ (busy l e /\ below fin e)) end) /\
  StronglySorted before (free_from l row fin) /\
  (fin = None -> exists s, In (s, None) (free_from l row fin)).
Proof.
  intro Ht. induction l as [|[s n] l IH]; intros Hw row fin Hr.
  - cbn [free_from].
    assert (E : (match fin with None => true | Some e => row <? e end) = true <-> below fin row).
    { unfold below. destruct fin; [apply Z.ltb_lt | tauto]. }
    destruct (match fin with None => true | Some e => row <? e end).
    + assert (Hb : below fin row) by now apply E. clear E. repeat split.
      * destruct H as [i [[<-|[]] [H1 H2]]]. exact H1.
      * destruct H as [i [[<-|[]] [H1 H2]]]. exact H2.
      * apply busy_nil.
      * intros [H1 [H2 _]]. exists (row, fin). split; [now left|]. split; assumption.
      * intros. destruct H as [<-|[]]. simpl. lia.
      * destruct H as [<-|[]]. simpl. lia.
      * destruct H as [<-|[]]. exact Hb.
      * destruct H as [<-|[]]. simpl. destruct fin; [|reflexivity]. simpl in Hb. split; [exact Hb | now left].
      * constructor; constructor.
      * intros ->. exists row. now left.
    + assert (Hb : ~ below fin row) by (intro X; apply E in X; discriminate). clear E. repeat split.
      * destruct H as [i [[] _]].
      * destruct H as [i [[] _]].
      * destruct H as [i [[] _]].
      * intros [H1 [H2 _]]. exfalso. apply Hb. destruct fin; [simpl in *; lia | exact I].
      * destruct H.
      * destruct H.
      * destruct H.
      * destruct H.
      * constructor.
      * intros ->. exfalso. now apply Hb.
  - destruct Hw as [Hs Hw]. assert (Hw' : well_formed l top).
    { split; [now inversion Hs|]. intros. apply Hw. now right. }
    assert (Hsn : 0 <= s /\ 0 < n /\ s + n <= top) by (apply Hw; now left).
    assert (Hgt : forall s' n', In (s', n') l -> s < s').
    { intros s' n' Hi. inversion Hs; subst. rewrite Forall_forall in H2. exact (H2 _ Hi). }
    specialize (IH Hw'). cbn [free_from fst].
    destruct (match fin with Some e => e <=? s | None => false end) eqn:Ef.
    + destruct fin as [e|]; [|discriminate]. apply Z.leb_le in Ef.
      assert (Hnb : forall r, r < e -> ~ busy ((s, n) :: l) r).
      { intros r Hre Hbz. apply busy_cons in Hbz. simpl in Hbz. destruct Hbz as [Hbz|[s' [n' [Hi Hbz]]]]; [lia|].
        specialize (Hgt _ _ Hi). lia. }
      destruct (row <? e) eqn:Er.
      * apply Z.ltb_lt in Er. repeat split.
        -- destruct H as [i [[<-|[]] [H1 H2]]]. exact H1.
        -- destruct H as [i [[<-|[]] [H1 H2]]]. exact H2.
        -- destruct H as [i [[<-|[]] [H1 H2]]]. now apply Hnb.
        -- intros [H1 [H2 _]]. exists (row, Some e). split; [now left|]. split; assumption.
        -- destruct H as [<-|[]]. simpl. lia.
        -- destruct H as [<-|[]]. simpl. lia.
        -- destruct H as [<-|[]]. exact Er.
        -- destruct H as [<-|[]]. simpl. split; [lia | now left].
        -- constructor; constructor.
        -- discriminate.
      * apply Z.ltb_ge in Er. repeat split; try (destruct H as [i [[] _]]); try destruct H.
        -- intros [H1 [H2 _]]. simpl in H2. lia.
        -- constructor.
        -- discriminate.
    + assert (Hsf : below fin s) by (destruct fin; [apply Z.leb_gt in Ef; exact Ef | exact I]).
      assert (Hae : a_end (s, n) = s + n) by (unfold a_end; apply trunc_small; simpl; lia).
      rewrite Hae. destruct (IH (Z.max row (s + n)) fin ltac:(lia)) as [H1 [H2 [H3 H4]]].
      destruct (row <? s) eqn:Er; cbn [app].
      * apply Z.ltb_lt in Er. split; [|split; [|split]].
        -- intro r. split.
           ++ intros [i [[<-|Hi] Hin]].
              ** unfold inside in Hin. simpl in Hin. split; [lia|]. split; [destruct fin; simpl in *; [lia | exact I]|].
                 intro Hbz. apply busy_cons in Hbz. simpl in Hbz. destruct Hbz as [Hbz|[s' [n' [Hi' Hbz]]]]; [lia|].
                 specialize (Hgt _ _ Hi'). lia.
              ** destruct (proj1 (H1 r)) as [Ha [Hb Hc]]; [eauto|]. split; [lia|]. split; [exact Hb|].
                 intro Hbz. apply busy_cons in Hbz. simpl in Hbz. destruct Hbz as [Hbz|Hbz]; [lia | contradiction].
           ++ intros [Ha [Hb Hc]]. assert (Hd : ~ (s <= r < s + n) /\ ~ busy l r).
              { split; intro; apply Hc; apply busy_cons; [left; simpl; lia | now right]. }
              destruct (Z_lt_dec r s).
              ** exists (row, Some s). split; [now left|]. split; simpl; lia.
              ** destruct (proj2 (H1 r)) as [i [Hi Hin]]; [split; [lia|]; tauto|]. exists i. split; [now right | exact Hin].
        -- intros i [<-|Hi]; cbn [fst snd].
           ++ split; [lia|]. split; [destruct fin; simpl in *; [lia | exact I]|]. split; [lia|]. right. split; [|exact Hsf].
              apply busy_cons. left. simpl. lia.
           ++ destruct (H2 i Hi) as [Ha [Hb Hc]]. split; [lia|]. split; [exact Hb|]. destruct (snd i); [|exact Hc].
              destruct Hc as [Hc [Hd|[Hd He]]]; (split; [exact Hc|]); [now left | right; split; [|exact He]].
              apply busy_cons. now right.
        -- constructor; [exact H3|]. rewrite Forall_forall. intros j Hj. destruct (H2 j Hj) as [Ha _]. exists s. split; [reflexivity | lia].
        -- intro Hf. destruct (H4 Hf) as [x Hx]. exists x. now right.
      * apply Z.ltb_ge in Er. split; [|split; [|split]].
        -- intro r. rewrite H1. rewrite busy_cons. simpl. split; intros [Ha [Hb Hc]]; (split; [lia|]; split; [exact Hb|]; lia) || idtac.
           ++ split; [lia|]. split; [exact Hb|]. intros [X|X]; [lia | contradiction].
           ++ assert (~ (s <= r < s + n)) by (intro; apply Hc; now left). split; [lia|]. split; [exact Hb|]. intro; apply Hc; now right.
        -- intros i Hi. destruct (H2 i Hi) as [Ha [Hb Hc]]. split; [lia|]. split; [exact Hb|]. destruct (snd i); [|exact Hc].
           destruct Hc as [Hc [Hd|[Hd He]]]; (split; [exact Hc|]); [now left | right; split; [|exact He]].
           apply busy_cons. now right.
        -- exact H3.
        -- exact H4.
Qed.

Lemma SSorted_in {A} (R : A -> A -> Prop) l : StronglySorted R l -> forall a b, In a l -> In b l -> a = b \/ R a b \/ R b a.
Proof.
  induction 1 as [|x l Hs IH Hf]; intros a b Ha Hb; [destruct Ha|]. rewrite Forall_forall in Hf.
  destruct Ha as [<-|Ha], Hb as [<-|Hb]; auto.
Qed.

(** A run of free rows lies in one of the intervals. *)
Lemma free_run top l row fin len r : top < 2 ^ 32 -> well_formed l top -> 0 <= row -> 0 < len -> row <= r ->
  (forall x, r <= x < r + len -> below fin x /\ ~ busy l x) ->
  exists i, In i (free_from l row fin) /\ fst i <= r /\ match snd i with None => True | Some e => r + len <= e end.
Proof.
  intros Ht Hw Hrow Hl Hr Hx. destruct (free_from_spec top l Ht Hw row fin Hrow) as [H1 [H2 [H3 H4]]].
  destruct (proj2 (H1 r)) as [i [Hi [Ha Hb]]]; [split; [exact Hr | apply Hx; lia]|].
  exists i. split; [exact Hi|]. split; [exact Ha|]. destruct (snd i) as [e|] eqn:E; [|exact I].
  destruct (Z_le_dec (r + len) e); [assumption|]. exfalso.
  destruct (H2 i Hi) as [_ [_ Hc]]. rewrite E in Hc. destruct Hc as [_ [Hc|[Hc _]]].
  - subst fin. destruct (Hx e ltac:(lia)) as [X _]. simpl in X. lia.
  - destruct (Hx e ltac:(lia)) as [_ X]. contradiction.
Qed.
