(** FirstFitRegion and SlotIn. *)
From Coq Require Import ZArith Lia List Bool Sorted Permutation.
From Verif Require Import BigIntModel BufferModel LayoutModel LayoutSpec LayoutProof.
Import ListNotations.
Open Scope Z_scope.

Lemma to_int32_small x : - 2 ^ 31 <= x < 2 ^ 31 -> to_int32 x = x.
Proof. intro. unfold to_int32. rewrite Z.mod_small; lia. Qed.

Lemma in_a_insert a l : (forall s n, In (s, n) l -> s <> fst a) -> forall x, In x (a_insert a l) <-> x = a \/ In x l.
Proof.
  induction l as [|b l IH]; intros Hn x; simpl; [intuition congruence|].
  assert (Hb : fst b <> fst a) by (apply (Hn (fst b) (snd b)); left; now destruct b).
  destruct (fst a <? fst b) eqn:E1; [simpl; intuition congruence|]. apply Z.ltb_ge in E1.
  destruct (fst b <? fst a) eqn:E2; [|apply Z.ltb_ge in E2; lia].
  simpl. rewrite IH by (intros; apply (Hn s n); now right). intuition congruence.
Qed.

Lemma a_insert_wf a l top : well_formed l top -> (forall s n, In (s, n) l -> s <> fst a) -> 0 <= fst a -> 0 < snd a ->
  well_formed (a_insert a l) (Z.max top (fst a + snd a)).
Proof.
  intros [Hs Hw] Hn Ha Hl. split.
  - clear Hw. induction Hs as [|b l Hs IH Hf]; simpl; [repeat constructor|].
    assert (Hb : fst b <> fst a) by (apply (Hn (fst b) (snd b)); left; now destruct b).
    destruct (fst a <? fst b) eqn:E1.
    + apply Z.ltb_lt in E1. constructor; [constructor; assumption|]. constructor; [exact E1|].
      rewrite Forall_forall in *. intros y Hy. specialize (Hf y Hy). lia.
    + apply Z.ltb_ge in E1. destruct (fst b <? fst a) eqn:E2; [|apply Z.ltb_ge in E2; lia]. apply Z.ltb_lt in E2.
      constructor; [apply IH; intros; apply (Hn s n); now right|]. rewrite Forall_forall in *. intros y Hy.
      apply in_a_insert in Hy; [|intros; apply (Hn s n); now right]. destruct Hy as [->|Hy]; [exact E2 | auto].
  - intros s n Hi. apply in_a_insert in Hi; [|exact Hn]. destruct Hi as [<-|Hi]; [simpl in *; lia|]. specialize (Hw s n Hi). lia.
Qed.

Lemma busy_insert a l : (forall s n, In (s, n) l -> s <> fst a) -> forall r, busy (a_insert a l) r <-> (fst a <= r < fst a + snd a) \/ busy l r.
Proof.
  intros Hn r. unfold busy. split.
  - intros [s [n [Hi Hr]]]. apply in_a_insert in Hi; [|exact Hn]. destruct Hi as [<-|Hi]; [now left | right; eauto].
  - intros [H|[s [n [Hi Hr]]]]; [exists (fst a), (snd a) | exists s, n]; (split; [|assumption]); apply in_a_insert; auto. left. now destruct a.
Qed.

(** Rows [r, r + len) free and len > 0: no interval starts at r. *)
Lemma free_start l top r len : well_formed l top -> 0 < len -> (forall x, r <= x < r + len -> ~ busy l x) -> forall s n, In (s, n) l -> s <> r.
Proof. intros [_ Hw] Hl Hf s n Hi ->. specialize (Hw _ _ Hi). apply (Hf r); [lia|]. exists r, n. split; [exact Hi | lia]. Qed.

Definition updated (ca ca' : circuit) (cols : list column) (a : Z * Z) : Prop :=
  forall c, (In c cols -> allocs ca' c = a_insert a (allocs ca c)) /\ (~ In c cols -> allocs ca' c = allocs ca c).

Lemma try_spaces_spec (rec : Z -> option Z -> fit) ca c remaining len slack fin (top : Z) spaces :
  0 < len -> ~ In c remaining ->
  (forall i, In i spaces -> 0 <= fst i /\ Z.max (fst i) top + len < 2 ^ 31 /\
     match snd i with
     | None => slack = None /\ fin = None
     | Some e => fst i < e /\ e < 2 ^ 31 /\ match slack, fin with Some a, Some f => e - fst i - len <= a /\ e <= f | None, None => True | _, _ => False end
     end) ->
  StronglySorted before spaces ->
  (forall i, In i spaces -> match snd i with None => True | Some e => 0 <= e - fst i - len end ->
     match rec (fst i) (option_map (fun e => e - fst i - len) (snd i)) with
     | Fit r ca' => fst i <= r /\ match snd i with None => True | Some e => r + len <= e end /\ room ca remaining len r /\
                    (forall r', fst i <= r' < r -> ~ room ca remaining len r') /\ updated ca ca' remaining (r, len) /\ r + len < 2 ^ 31
     | NoFit => snd i <> None /\ forall r', fst i <= r' -> match snd i with None => True | Some e => r' + len <= e end -> ~ room ca remaining len r'
     | Crash => False
     end) ->
  match try_spaces rec c len slack fin spaces with
  | Fit r ca' => (exists i, In i spaces /\ fst i <= r /\ match snd i with None => True | Some e => r + len <= e end) /\ room ca remaining len r /\
                 (forall r' i, In i spaces -> fst i <= r' -> match snd i with None => True | Some e => r' + len <= e end -> r' < r -> ~ room ca remaining len r') /\
                 updated ca ca' (c :: remaining) (r, len)
  | NoFit => (forall i, In i spaces -> snd i <> None) /\
             forall r' i, In i spaces -> fst i <= r' -> match snd i with None => True | Some e => r' + len <= e end -> ~ room ca remaining len r'
  | Crash => False
  end.
Proof.
  intros Hl Hc. induction spaces as [|[s e] more IH]; intros Hb Hs Hrec; cbn [try_spaces].
  - split; [intros i []|]. intros r' i [].
  - assert (IH' : _) by (refine (IH _ _ _);
      [intros i Hi; apply Hb; now right | now inversion Hs | intros i Hi; apply Hrec; now right]). clear IH.
    destruct (Hb (s, e) (or_introl eq_refl)) as [H0 [H1 H2]]. cbn [fst snd] in *.
    specialize (Hrec (s, e) (or_introl eq_refl)). cbn [fst snd] in Hrec.
    assert (Hsl : option_map (fun e => to_int32 (e - s - len)) e = option_map (fun e => e - s - len) e).
    { destruct e as [e|]; [|reflexivity]. simpl. f_equal. apply to_int32_small. lia. }
    rewrite Hsl.
    assert (Hcrash : (match slack, option_map (fun e => e - s - len) e with Some a, Some b => a <? b | _, _ => false end) = false).
    { destruct slack as [a|], e as [e|]; try reflexivity. simpl. apply Z.ltb_ge. destruct fin; [lia | tauto]. }
    rewrite Hcrash.
    assert (Hskip : forall P : Z -> Prop, (match e with None => False | Some e => e - s - len < 0 end) ->
              forall r', s <= r' -> match e with None => True | Some e => r' + len <= e end -> P r').
    { intros P Hneg r' Hr' He. destruct e; [lia | tauto]. }
    assert (Hmore : forall j, In j more -> exists e', e = Some e' /\ e' < fst j).
    { intros j Hj. inversion Hs; subst. rewrite Forall_forall in H5. destruct (H5 j Hj) as [e' [He' Hlt]]. eauto. }
    destruct (match option_map (fun e => e - s - len) e with None => true | Some b => 0 <=? b end) eqn:Efit.
    + assert (Hfit : match e with None => True | Some e => 0 <= e - s - len end).
      { destruct e; [apply Z.leb_le in Efit; exact Efit | exact I]. }
      specialize (Hrec Hfit). destruct (rec s (option_map (fun e => e - s - len) e)) as [r ca'| |].
      * destruct Hrec as [Ha [Hb' [Hroom [Hleast [Hupd Hrl]]]]].
        assert (Hfin : (match fin with Some f => f <? trunc 32 (r + len) | None => false end) = false).
        { destruct fin as [f|]; [|reflexivity]. apply Z.ltb_ge. rewrite trunc_small by lia.
          destruct e as [e|]; [destruct slack; [lia | tauto] | destruct H2; discriminate]. }
        rewrite Hfin. split; [exists (s, e); split; [now left|]; split; assumption|]. split; [exact Hroom|]. split.
        -- intros r' i [<-|Hi] Hr1 Hr2 Hlt; cbn [fst snd] in *; [apply Hleast; lia|].
           destruct (Hmore i Hi) as [e' [-> He']]. lia.
        -- intro c'. destruct (column_dec c c') as [<-|Hne].
           ++ split; [|intro X; exfalso; apply X; now left]. intros _. unfold allocs at 1. rewrite get_put_same. f_equal. now apply Hupd.
           ++ destruct (Hupd c') as [U1 U2].
              assert (E : allocs (put ca' c (a_insert (r, len) (allocs ca' c))) c' = allocs ca' c') by (unfold allocs at 1; now rewrite get_put_other by exact Hne).
              rewrite E. split.
              ** intros [X|X]; [contradiction | now apply U1].
              ** intro X. apply U2. intro Y. apply X. now right.
      * destruct Hrec as [Hn Hno]. destruct (try_spaces rec c len slack fin more) as [r ca'| |].
        -- destruct IH' as [[i [Hi Hin]] [Hroom [Hleast Hupd]]]. split; [exists i; split; [now right | exact Hin]|]. split; [exact Hroom|].
           split; [|exact Hupd]. intros r' j [<-|Hj] Hr1 Hr2 Hlt; cbn [fst snd] in *; [now apply Hno | now apply (Hleast r' j)].
        -- destruct IH' as [Hn' Hno']. split; [intros i [<-|Hi]; [exact Hn | now apply Hn']|].
           intros r' j [<-|Hj] Hr1 Hr2; cbn [fst snd] in *; [now apply Hno | now apply (Hno' r' j)].
        -- exact IH'.
      * exact Hrec.
    + assert (Hneg : match e with None => False | Some e => e - s - len < 0 end).
      { destruct e; [simpl in Efit; apply Z.leb_gt in Efit; exact Efit | discriminate]. }
      destruct (try_spaces rec c len slack fin more) as [r ca'| |].
      * destruct IH' as [[i [Hi Hin]] [Hroom [Hleast Hupd]]]. split; [exists i; split; [now right | exact Hin]|]. split; [exact Hroom|].
        split; [|exact Hupd]. intros r' j [<-|Hj] Hr1 Hr2 Hlt; cbn [fst snd] in *; [now apply (Hskip (fun r' => ~ room ca remaining len r')) | now apply (Hleast r' j)].
      * destruct IH' as [Hn' Hno']. split; [intros i [<-|Hi]; [destruct e; [discriminate | destruct Hneg] | now apply Hn']|].
        intros r' j [<-|Hj] Hr1 Hr2; cbn [fst snd] in *; [now apply (Hskip (fun r' => ~ room ca remaining len r')) | now apply (Hno' r' j)].
      * exact IH'.
Qed.

Lemma first_fit_spec ca top len : forall cols start slack,
  NoDup cols -> (cols <> [] -> 0 < len) -> (forall c, In c cols -> well_formed (allocs ca c) top) ->
  0 <= start -> 0 <= top -> 0 <= len -> Z.max start top + len < 2 ^ 31 ->
  (forall s, slack = Some s -> 0 <= s /\ start + len + s < 2 ^ 31) ->
  match first_fit ca cols len start slack with
  | Fit r ca' => start <= r /\ (forall s, slack = Some s -> r <= start + s) /\ room ca cols len r /\
                 (forall r', start <= r' < r -> ~ room ca cols len r') /\ updated ca ca' cols (r, len)
  | NoFit => exists s, slack = Some s /\ forall r', start <= r' <= start + s -> ~ room ca cols len r'
  | Crash => False
  end.
Proof.
  induction cols as [|c remaining IH]; intros start slack Hnd Hl Hwf Hst Htop Hlen Hmax Hsl; cbn [first_fit].
  - split; [lia|]. split; [intros s Hs; destruct (Hsl s Hs); lia|]. split; [intros c x []|]. split; [intros; lia|].
    intro c. split; [intros [] | reflexivity].
  - assert (Hl' : 0 < len) by (apply Hl; discriminate). inversion Hnd as [|? ? Hc Hnd']; subst.
    assert (Hwc : well_formed (allocs ca c) top) by (apply Hwf; now left).
    assert (Hfin : option_map (fun s => trunc 32 (trunc 32 (start + len) + s)) slack = option_map (fun s => start + len + s) slack).
    { destruct slack as [s|]; [|reflexivity]. simpl. destruct (Hsl s eq_refl). f_equal.
      rewrite (trunc_small 32 (start + len)) by lia. rewrite trunc_small by lia. reflexivity. }
    rewrite Hfin. set (fin := option_map (fun s => start + len + s) slack).
    assert (Hfin' : match slack, fin with Some a, Some f => f = start + len + a | None, None => True | _, _ => False end).
    { unfold fin. destruct slack; simpl; auto. }
    clearbody fin.
    unfold free_intervals.
    destruct (free_from_spec top (allocs ca c) ltac:(lia) Hwc start fin Hst) as [F1 [F2 [F3 F4]]].
    pose proof (free_run top (allocs ca c) start fin len) as Frun.
    assert (Hsp : forall i, In i (free_from (allocs ca c) start fin) -> 0 <= fst i /\ Z.max (fst i) top + len < 2 ^ 31 /\
       match snd i with
       | None => slack = None /\ fin = None
       | Some e => fst i < e /\ e < 2 ^ 31 /\ match slack, fin with Some a, Some f => e - fst i - len <= a /\ e <= f | None, None => True | _, _ => False end
       end).
    { intros i Hi. destruct (F2 i Hi) as [Ha [Hb Hd]]. split; [lia|]. split; [lia|]. destruct (snd i) as [e|].
      - destruct Hd as [Hd He]. split; [exact Hd|].
        assert (Hee : e < 2 ^ 31).
        { destruct He as [He|[[s [n [Hin Hx]]] _]].
          - rewrite He in Hfin'. destruct slack as [a|]; [|tauto]. destruct (Hsl a eq_refl). lia.
          - destruct Hwc as [_ Hw]. specialize (Hw _ _ Hin). lia. }
        split; [exact Hee|]. destruct slack as [a|], fin as [f|]; try tauto.
        assert (e <= f) by (destruct He as [He|[_ He]]; [injection He; lia | simpl in He; lia]). lia.
      - subst fin. destruct slack; [tauto|]. split; reflexivity || assumption. }
    assert (Hrec : forall i, In i (free_from (allocs ca c) start fin) -> match snd i with None => True | Some e => 0 <= e - fst i - len end ->
     match first_fit ca remaining len (fst i) (option_map (fun e => e - fst i - len) (snd i)) with
     | Fit r ca' => fst i <= r /\ match snd i with None => True | Some e => r + len <= e end /\ room ca remaining len r /\
                    (forall r', fst i <= r' < r -> ~ room ca remaining len r') /\ updated ca ca' remaining (r, len) /\ r + len < 2 ^ 31
     | NoFit => snd i <> None /\ forall r', fst i <= r' -> match snd i with None => True | Some e => r' + len <= e end -> ~ room ca remaining len r'
     | Crash => False
     end).
    { intros i Hi Hfit. destruct (Hsp i Hi) as [Ha [Hb Hd]].
      pose proof (IH (fst i) (option_map (fun e => e - fst i - len) (snd i)) Hnd' ltac:(intro; exact Hl') ltac:(intros c' Hc'; apply Hwf; now right) Ha Htop Hlen Hb) as IHi.
      assert (HS : forall s, option_map (fun e => e - fst i - len) (snd i) = Some s -> 0 <= s /\ fst i + len + s < 2 ^ 31).
      { intros s Hs. destruct (snd i); [|discriminate]. simpl in Hs. injection Hs as <-. lia. }
      specialize (IHi HS). destruct (first_fit ca remaining len (fst i) (option_map (fun e => e - fst i - len) (snd i))) as [r ca'| |].
      - destruct IHi as [I1 [I2 [I3 [I4 I5]]]]. split; [exact I1|].
        assert (I2' : match snd i with Some e => r + len <= e | None => True end).
        { destruct (snd i); [|exact I]. specialize (I2 _ eq_refl). simpl in I2. lia. }
        split; [exact I2'|]. split; [exact I3|]. split; [exact I4|]. split; [exact I5|].
        destruct (snd i); [lia|].
        destruct (Z_le_dec r (Z.max (fst i) top)); [lia|]. exfalso. apply (I4 (Z.max (fst i) top)); [lia|].
        intros c' x Hc' Hx [s [n' [Hin Hbz]]]. destruct (Hwf c' (or_intror Hc')) as [_ Hw]. specialize (Hw _ _ Hin). lia.
      - destruct IHi as [s [Hs Hno]]. destruct (snd i) as [e|]; [|discriminate]. simpl in Hs. injection Hs as <-.
        split; [discriminate|]. intros r' H1 H2. apply Hno. lia.
      - exact IHi. }
    pose proof (try_spaces_spec (first_fit ca remaining len) ca c remaining len slack fin top _ Hl' Hc Hsp F3 Hrec) as T.
    assert (Hcons : forall r, room ca (c :: remaining) len r <-> (forall x, r <= x < r + len -> ~ busy (allocs ca c) x) /\ room ca remaining len r).
    { intro r. split.
      - intro H. split; [intros x Hx; apply H; [now left | exact Hx] | intros c' x Hc' Hx; apply H; [now right | exact Hx]].
      - intros [HA HB] c' x [<-|Hc'] Hx; [now apply HA | now apply HB]. }
    assert (Hfind : forall r', start <= r' -> (forall a, slack = Some a -> r' <= start + a) -> room ca (c :: remaining) len r' ->
       exists i, In i (free_from (allocs ca c) start fin) /\ fst i <= r' /\ match snd i with None => True | Some e => r' + len <= e end).
    { intros r' H1 H2 H3. apply Hcons in H3. destruct H3 as [H3 _]. apply Frun; try assumption; [lia|]. intros x Hx. split; [|now apply H3].
      destruct fin as [f|]; [|exact I]. destruct slack as [a|]; [|tauto]. specialize (H2 a eq_refl). simpl. lia. }
    destruct (try_spaces (first_fit ca remaining len) c len slack fin (free_from (allocs ca c) start fin)) as [r ca'| |].
    + destruct T as [[i [Hi [Hi1 Hi2]]] [T2 [T3 T4]]]. destruct (Hsp i Hi) as [Ha [Hb Hd]]. destruct (F2 i Hi) as [Hra _].
      split; [lia|]. split.
      { intros a ->. destruct (snd i); [|destruct Hd; discriminate]. destruct fin; [lia | tauto]. }
      split.
      { apply Hcons. split; [|exact T2]. intros x Hx. apply (F1 x). exists i. split; [exact Hi|]. split; [lia|]. destruct (snd i); [lia | exact I]. }
      split; [|exact T4]. intros r' Hr' Hroom.
      destruct (Hfind r') as [j [Hj [Hj1 Hj2]]]; [lia | | exact Hroom |].
      { intros a ->. destruct (snd i); [|destruct Hd; discriminate]. destruct fin; [lia | tauto]. }
      apply (T3 r' j Hj Hj1 Hj2); [lia|]. now apply Hcons.
    + destruct T as [T1 T2]. destruct slack as [a|].
      * exists a. split; [reflexivity|]. intros r' Hr' Hroom. destruct (Hfind r') as [j [Hj [Hj1 Hj2]]]; [lia | intros a' Ha'; injection Ha' as <-; lia | exact Hroom|].
        apply (T2 r' j Hj Hj1 Hj2). now apply Hcons.
      * destruct fin; [tauto|]. destruct (F4 eq_refl) as [s Hs]. exfalso. now apply (T1 _ Hs).
    + exact T.
Qed.
