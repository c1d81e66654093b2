(** What a circuit leaves in the constraint system, and how TransformLCMap keeps its meaning. *)
From Coq Require Import List Bool Arith Lia Permutation Sorted Ring Field Field_theory.
From Verif Require Import Field R1csModel R1csSpec R1csProof.
Import ListNotations.
Open Scope fld_scope.
Open Scope nat_scope.

(** Small facts on lists. *)
Lemma set_at_length {A} (l : list A) i x : length (set_at l i x) = length l.
Proof. revert i. induction l as [|y l IH]; intros [|i]; cbn; [reflexivity..|rewrite IH; reflexivity]. Qed.
Lemma set_at_nth {A} (l : list A) : forall i j x, i < length l -> nth_error (set_at l i x) j = if Nat.eqb i j then Some x else nth_error l j.
Proof.
  induction l as [|y l IH]; intros i j x H; cbn [length] in H; [lia|]. destruct i as [|i], j as [|j]; cbn [set_at nth_error Nat.eqb]; try reflexivity.
  apply IH. lia.
Qed.

Section Finalize.
  Variable K : fld.
  Add Field Kr2 : (fld_theory K).
  Implicit Types (l out : lc K) (m : list (nat * lc K)).

  (** Uses of a linear combination. *)
  Fixpoint cnt (j : nat) l : nat :=
    match l with [] => 0 | t :: r => (match snd t with VLc i => if Nat.eqb i j then 1 else 0 | _ => 0 end) + cnt j r end.
  Lemma cnt_app j a b : cnt j (a ++ b) = cnt j a + cnt j b.
  Proof. induction a as [|t a IH]; cbn [cnt app]; [reflexivity|]. rewrite IH. lia. Qed.

  Lemma find_erase m k j : find_lc (erase_lc m k) j = if Nat.eqb j k then None else find_lc m j.
  Proof.
    unfold erase_lc. induction m as [|[i l] m IH]; cbn [filter find_lc fst]; [destruct (Nat.eqb j k); reflexivity|].
    destruct (Nat.eqb_spec i k) as [E|Ne]; cbn [negb find_lc].
    - rewrite IH. destruct (Nat.eqb_spec j k) as [Ej|Nj]; [reflexivity|]. rewrite (proj2 (Nat.eqb_neq i j)) by lia. reflexivity.
    - destruct (Nat.eqb_spec i j) as [Ej|Nj]; [|exact IH]. rewrite (proj2 (Nat.eqb_neq j k)) by lia. reflexivity.
  Qed.
  Lemma find_snoc m i e j : find_lc (m ++ [(i, e)]) j = match find_lc m j with Some x => Some x | None => if Nat.eqb i j then Some e else None end.
  Proof. induction m as [|[k l] m IH]; cbn [app find_lc]; [destruct (Nat.eqb i j); reflexivity|]. destruct (Nat.eqb k j); [reflexivity|exact IH]. Qed.

  (** A variable with a column: what is left after inlining. *)
  Definition concrete (ni nw : nat) (v : var) : Prop :=
    match v with VOne => True | VInst i => i < ni | VWit i => i < nw | _ => False end.
  Lemma concrete_le ni nw nw' v : nw <= nw' -> concrete ni nw v -> concrete ni nw' v.
  Proof. destruct v; cbn; auto; lia. Qed.
  Lemma concrete_value ni nw I W L L' l : Forall (fun t : term K => concrete ni nw (snd t)) l -> value I W L l = value I W L' l.
  Proof.
    induction 1 as [|t l H F IH]; [reflexivity|]. rewrite !value_cons, IH. f_equal. f_equal. destruct (snd t); cbn in H |- *; try reflexivity; contradiction.
  Qed.
  Lemma concrete_prefix ni nw I W W' L l : Forall (fun t : term K => concrete ni nw (snd t)) l -> (forall i, i < nw -> nth i W 0%fld = nth i W' 0%fld) ->
    value I W L l = value I W' L l.
  Proof.
    intros F E. induction F as [|t l H F IH]; [reflexivity|]. rewrite !value_cons, IH. f_equal. f_equal. destruct (snd t); cbn in H |- *; try reflexivity. apply E, H.
  Qed.
  Lemma scale_vars (P : var -> Prop) l c : Forall (fun t => P (snd t)) l -> Forall (fun t => P (snd t)) (scale_lc l c).
  Proof. intros F. apply Forall_forall. intros x Hx. apply in_map_iff in Hx. destruct Hx as (y & <- & Hy). exact (proj1 (Forall_forall _ _) F y Hy). Qed.

  Section Transform.
    Variable lcs : list (lc K).
    Variable ni nw0 : nat.
    Variable V : list K -> list K -> list K.
    Hypothesis refs : forall j l, nth_error lcs j = Some l ->
      Forall (fun t => match snd t with VZero => False | VOne => True | VInst i => i < ni | VWit i => i < nw0 | VLc i => i < j end) l.
    Hypothesis Vok : forall I W j l, nth_error lcs j = Some l -> nth j (V I W) 0%fld = value I W (V I W) l.
    Let n := length lcs.
    Let all := concat lcs.

    Lemma lcs_bound j : j < n -> exists l, nth_error lcs j = Some l.
    Proof using Type. clear refs Vok. intros H. destruct (nth_error lcs j) as [l|] eqn:E; [exists l; reflexivity|]. apply nth_error_None in E. fold n in E. lia. Qed.
    Lemma cnt_high j i : i <= j -> cnt j (concat (firstn i lcs)) = 0.
    Proof using refs.
      clear Vok. intros H. induction i as [|i IH]; [reflexivity|].
      assert (IH' := IH ltac:(lia)). clear IH.
      destruct (nth_error lcs i) as [l|] eqn:E.
      - assert (firstn (S i) lcs = firstn i lcs ++ [l]) as ->.
        { clear -E. revert i E. induction lcs as [|x r IH]; intros [|i] E; cbn in *; try discriminate; [injection E as ->; reflexivity|]. rewrite (IH i E). reflexivity. }
        rewrite concat_app, cnt_app, IH'. cbn [concat]. rewrite app_nil_r. pose proof (refs i l E) as F. clear -F H.
        induction F as [|t l Ht F IH]; [reflexivity|]. cbn [cnt]. cbn [Nat.add] in IH |- *. rewrite IH. destruct (snd t); try reflexivity. rewrite (proj2 (Nat.eqb_neq _ _)) by lia. reflexivity.
      - rewrite firstn_all2 by (apply nth_error_None in E; lia). rewrite firstn_all2 in IH' by (apply nth_error_None in E; lia). exact IH'.
    Qed.

    (** ComputeLCNumTimesUsed. *)
    Lemma bump_terms_spec l : forall used, length used = n -> Forall (fun t : term K => match snd t with VLc i => i < n | _ => True end) l ->
      exists u, bump_terms used l = Some u /\ length u = n /\ forall j x, nth_error used j = Some x -> nth_error u j = Some (x + cnt j l).
    Proof using Type.
      clear. induction l as [|t l IH]; intros used Hl F; cbn [bump_terms].
      - exists used. split; [reflexivity|]. split; [exact Hl|]. intros j x Hx. cbn [cnt]. rewrite Nat.add_0_r. exact Hx.
      - inversion_clear F as [|? ? Ht Fl]. destruct (snd t) as [| |i|i|i] eqn:E; cbn [cnt]; rewrite ?E; try exact (IH used Hl Fl).
        unfold bump. destruct (nth_error used i) as [y|] eqn:Ey; [|apply nth_error_None in Ey; lia].
        destruct (IH (set_at used i (y + 1))) as (u & H1 & H2 & H3); [rewrite set_at_length; exact Hl|exact Fl|].
        exists u. split; [exact H1|]. split; [exact H2|]. intros j x Hx. rewrite (H3 j (if Nat.eqb i j then y + 1 else x)).
        + destruct (Nat.eqb_spec i j) as [Eij|Ne]; [rewrite Eij in Ey; assert (x = y) by congruence|]; apply f_equal; lia.
        + rewrite set_at_nth by lia. destruct (Nat.eqb i j); [reflexivity|exact Hx].
    Qed.
    Lemma times_used_spec : forall (ls : list (lc K)) i used, length used = n -> i + length ls <= n ->
      Forall (Forall (fun t : term K => match snd t with VLc i => i < n | _ => True end)) ls ->
      exists u, times_used false (combine (seq i (length ls)) ls) used = Some u /\ length u = n /\ forall j x, nth_error used j = Some x -> nth_error u j = Some (x + cnt j (concat ls)).
    Proof using Type.
      clear refs Vok. induction ls as [|l ls IH]; intros i used Hl Hi F; cbn [length seq combine times_used].
      - exists used. split; [reflexivity|]. split; [exact Hl|]. intros j x Hx. cbn [concat cnt]. rewrite Nat.add_0_r. exact Hx.
      - cbn [length] in Hi. inversion_clear F as [|? ? Ft Fl]. unfold bump. destruct (nth_error used i) as [y|] eqn:Ey; [|apply nth_error_None in Ey; lia].
        destruct (bump_terms_spec l (set_at used i (y + 0))) as (u & H1 & H2 & H3); [rewrite set_at_length; exact Hl|exact Ft|]. rewrite H1.
        destruct (IH (S i) u H2) as (u' & H4 & H5 & H6); [lia|exact Fl|]. exists u'. split; [exact H4|]. split; [exact H5|].
        intros j x Hx. cbn [concat]. rewrite cnt_app, Nat.add_assoc. apply H6, H3. rewrite set_at_nth by lia.
        destruct (Nat.eqb_spec i j) as [->|Ne]; [|exact Hx]. rewrite Nat.add_0_r. congruence.
    Qed.

    Definition entries : list (nat * lc K) := combine (seq 0 n) lcs.
    Lemma compute_spec : exists u, compute_times_used false entries = Some u /\ length u = n /\ forall j, j < n -> nth_error u j = Some (cnt j all).
    Proof using refs.
      clear Vok. unfold compute_times_used, entries. rewrite combine_length, seq_length. fold n. rewrite Nat.min_id.
      destruct (times_used_spec lcs 0 (repeat 0 n)) as (u & H1 & H2 & H3); [apply repeat_length|fold n; lia| |].
      - apply Forall_forall. intros l Hl. apply In_nth_error in Hl. destruct Hl as [j Hj].
        assert (Hj' : nth_error lcs j = Some l) by exact Hj. assert (j < n) by (apply (proj1 (nth_error_Some lcs j)); rewrite Hj'; discriminate). apply Forall_forall. intros t Ht. pose proof (proj1 (Forall_forall _ _) (refs j l Hj) t Ht) as R. cbn beta in R.
        destruct (snd t); auto. lia.
      - exists u. fold n in H1. split; [exact H1|]. split; [exact H2|]. intros j Hj. apply (H3 j 0).
        rewrite (nth_error_nth' _ 0) by (rewrite repeat_length; exact Hj). f_equal. apply nth_repeat.
    Qed.

    (** The constraints of the new witnesses. *)
    Definition newok (I W : list K) (new : list (lc K * nat)) : Prop := Forall (fun e => nth (snd e) W 0%fld = value I W [] (fst e)) new.
    Definition good (nw : nat) (new : list (lc K * nat)) (j : nat) (e : lc K) : Prop :=
      Forall (fun t => concrete ni nw (snd t)) e /\ forall I W, newok I W new -> value I W [] e = nth j (V I W) 0%fld.

    (** The map and the counters, before the terms [todo] are processed (the rest of entry [i] and the later entries). *)
    Definition inv (nw : nat) (new : list (lc K * nat)) (i : nat) (todo : lc K) m (used : list nat) : Prop :=
      length used = n /\ (forall j, j < n -> nth_error used j = Some (cnt j todo)) /\ (forall j, cnt j todo <= cnt j all) /\
      (forall j, j < i -> (0 < cnt j todo \/ cnt j all = 0) -> exists e, find_lc m j = Some e) /\
      (forall j e, find_lc m j = Some e -> j < i /\ good nw new j e).

    Lemma inline_spec nw new i rest : i < n -> nw0 <= nw -> forall l out m used,
      Forall (fun t => match snd t with VZero => False | VOne => True | VInst i => i < ni | VWit i => i < nw0 | VLc j => j < i end) l ->
      inv nw new i (l ++ rest) m used -> Forall (fun t => concrete ni nw (snd t)) out ->
      exists out' m' used', inline_terms l out m used = Some (out', m', used') /\ inv nw new i rest m' used' /\ Forall (fun t => concrete ni nw (snd t)) out' /\
        forall I W, newok I W new -> value I W [] out' = (value I W [] out + value I W (V I W) l)%fld.
    Proof using Type.
      clear refs Vok. intros Hi Hnw. induction l as [|t l IH]; intros out m used Fl Hinv Fo; cbn [inline_terms].
      - exists out, m, used. split; [reflexivity|]. split; [exact Hinv|]. split; [exact Fo|]. intros I W _. rewrite value_nil. ring.
      - inversion_clear Fl as [|? ? Ft Fl']. rename Fl' into Fl. destruct Hinv as (U1 & U2 & U3 & M1 & M2).
        assert (plain : (forall j, snd t <> VLc j) -> concrete ni nw (snd t) ->
          exists out' m' used', inline_terms l (out ++ [t]) m used = Some (out', m', used') /\ inv nw new i rest m' used' /\ Forall (fun t => concrete ni nw (snd t)) out' /\
            forall I W, newok I W new -> value I W [] out' = (value I W [] out + value I W (V I W) (t :: l))%fld).
        { intros N C. assert (E : forall j, cnt j ((t :: l) ++ rest) = cnt j (l ++ rest)).
          { intros j. cbn [app cnt]. destruct (snd t); try reflexivity. exfalso. apply (N i0). reflexivity. }
          destruct (IH (out ++ [t]) m used Fl) as (o' & m' & u' & H1 & H2 & H3 & H4).
          - unfold inv. split; [exact U1|]. split; [intros j Hj; rewrite <- E; apply U2, Hj|]. split; [intros j; rewrite <- E; apply U3|]. split; [|exact M2].
            intros j Hj Hc. rewrite <- E in Hc. apply M1; assumption.
          - apply Forall_app. split; [exact Fo|]. constructor; [exact C|constructor].
          - exists o', m', u'. split; [exact H1|]. split; [exact H2|]. split; [exact H3|]. intros I W Hn. rewrite (H4 I W Hn), value_app, !value_cons, value_nil.
            assert (val I W [] (snd t) = val I W (V I W) (snd t)) as -> by (destruct (snd t); try reflexivity; exfalso; apply (N i0); reflexivity). ring. }
        destruct (snd t) as [| |k|k|k] eqn:Et.
        + contradiction.
        + apply plain; [intros j; congruence|exact I].
        + apply plain; [intros j; congruence|exact Ft].
        + apply plain; [intros j; congruence|cbn; lia].
        + assert (Ck : cnt k ((t :: l) ++ rest) = S (cnt k (l ++ rest))) by (cbn [app cnt]; rewrite Et, Nat.eqb_refl; lia).
          assert (Cj : forall j, j <> k -> cnt j ((t :: l) ++ rest) = cnt j (l ++ rest)) by (intros j Hj; cbn [app cnt]; rewrite Et, (proj2 (Nat.eqb_neq k j)) by lia; lia).
          destruct (M1 k Ft) as [e He]; [left; lia|]. rewrite He, (U2 k ltac:(lia)), Ck. rewrite Nat.sub_succ, Nat.sub_0_r.
          destruct (M2 k e He) as [_ [Gc Gv]].
          destruct (IH (out ++ scale_lc e (fst t)) (if Nat.eqb (cnt k (l ++ rest)) 0 then erase_lc m k else m) (set_at used k (cnt k (l ++ rest))) Fl) as (o' & m' & u' & H1 & H2 & H3 & H4).
          * unfold inv. rewrite set_at_length. split; [exact U1|]. split.
            { intros j Hj. rewrite set_at_nth by lia. destruct (Nat.eqb_spec k j) as [->|Ne]; [reflexivity|]. rewrite <- Cj by lia. apply U2, Hj. }
            split. { intros j. pose proof (U3 j) as B. destruct (Nat.eq_dec j k) as [->|Ne]; [lia|]. rewrite Cj in B by exact Ne. exact B. }
            split.
            { intros j Hj Hc. assert (Hj' : exists x, find_lc m j = Some x).
              { apply M1; [exact Hj|]. destruct (Nat.eq_dec j k) as [->|Ne]; [left; lia|]. rewrite Cj by exact Ne. exact Hc. }
              destruct (Nat.eqb_spec (cnt k (l ++ rest)) 0) as [Z|Z]; [|exact Hj']. rewrite find_erase.
              destruct (Nat.eqb_spec j k) as [->|Ne]; [|exact Hj']. exfalso. destruct Hc as [Hc|Hc]; [lia|]. pose proof (U3 k). lia. }
            intros j x Hx. apply M2. destruct (Nat.eqb (cnt k (l ++ rest)) 0); [|exact Hx]. rewrite find_erase in Hx. destruct (Nat.eqb j k); [discriminate Hx|exact Hx].
          * apply Forall_app. split; [exact Fo|]. apply scale_vars, Gc.
          * exists o', m', u'. split; [exact H1|]. split; [exact H2|]. split; [exact H3|]. intros I W Hn. rewrite (H4 I W Hn), value_app, value_scale, value_cons, Et.
            cbn [val]. rewrite (Gv I W Hn). ring.
    Qed.

    Lemma push nw new nw' new' i rest m used e : inv nw new i rest m used -> nw <= nw' -> (forall I W, newok I W new' -> newok I W new) ->
      good nw' new' i e -> inv nw' new' (S i) rest (m ++ [(i, e)]) used.
    Proof using Type.
      clear refs Vok. intros (U1 & U2 & U3 & M1 & M2) Hn Hk G. unfold inv. split; [exact U1|]. split; [exact U2|]. split; [exact U3|]. split.
      - intros j Hj Hc. rewrite find_snoc. destruct (Nat.eq_dec j i) as [->|Ne].
        + rewrite Nat.eqb_refl. destruct (find_lc m i) as [x|]; eexists; reflexivity.
        + destruct (M1 j ltac:(lia) Hc) as [x ->]. exists x. reflexivity.
      - intros j x. rewrite find_snoc. destruct (find_lc m j) as [y|] eqn:E.
        + intros H. injection H as <-. destruct (M2 j y E) as [Hj [C Hv]]. split; [lia|]. split.
          * apply Forall_forall. intros t Ht. apply (concrete_le ni nw nw'); [exact Hn|exact (proj1 (Forall_forall _ _) C t Ht)].
          * intros I W H. apply Hv, Hk, H.
        + destruct (Nat.eqb_spec i j) as [<-|Ne]; [|discriminate]. intros H. injection H as <-. split; [lia|exact G].
    Qed.

    Lemma fold_concrete f I W old nw l : Forall (fun t => concrete ni nw (snd t)) l -> ni <= length I -> nw <= length W -> forall a,
      fold_left (fun acc (t : term K) => match acc, assigned f I W old (snd t) with Some a, Some x => Some (a + fst t * x)%fld | _, _ => None end) l (Some a)
      = Some (a + value I W [] l)%fld.
    Proof using Type.
      clear refs Vok V. clear n all. clear lcs. intros F HI HW. induction F as [|t l Ht F IH]; intros a; cbn [fold_left]; [rewrite value_nil; f_equal; ring|].
      assert (assigned f I W old (snd t) = Some (val I W [] (snd t))) as ->.
      { assert (E : match snd t with VOne | VInst _ | VWit _ => assigned f I W old (snd t) = Some (val I W [] (snd t)) | _ => False end); [|destruct (snd t); try contradiction; exact E].
        destruct (snd t) as [| |i|i|i]; cbn in Ht; try contradiction; destruct f; cbn [assigned val]; try reflexivity; apply nth_error_nth'; lia. }
      rewrite IH, value_cons. f_equal. ring.
    Qed.

    Variable sort : lc K -> lc K.
    Hypothesis Hsort : sorts_terms sort.
    Variables (outline setup : bool) (inst wit0 : list K).
    Hypothesis prove_mode : setup = false -> length inst = ni /\ length wit0 = nw0.

    Definition tinv (i : nat) (st : tstate K) : Prop :=
      inv (t_nwit st) (t_new st) i (concat (skipn i lcs)) (t_map st) (t_used st) /\
      t_nwit st = nw0 + length (t_new st) /\ map snd (t_new st) = seq nw0 (length (t_new st)) /\
      (forall e w, In (e, w) (t_new st) -> Forall (fun t => concrete ni w (snd t)) e) /\
      (setup = false -> exists ext, t_wit st = wit0 ++ ext /\ length ext = length (t_new st) /\ newok inst (t_wit st) (t_new st)) /\
      (setup = true -> t_wit st = wit0) /\
      (outline = false -> t_new st = []).

    Lemma skipn_cons i l : nth_error lcs i = Some l -> skipn i lcs = l :: skipn (S i) lcs.
    Proof using Type. clear. revert i. induction lcs as [|x r IH]; intros [|i] E; cbn in *; try discriminate; [injection E as ->; reflexivity|]. exact (IH i E). Qed.

    Lemma entry_spec old i l st : nth_error lcs i = Some l -> tinv i st ->
      exists st', transform_entry sort outline setup inst old st (i, l) = Some st' /\ tinv (S i) st'.
    Proof using Hsort Vok prove_mode refs.
      intros E (Hinv & Hnw & Hseq & Hnew & Hprove & Hset & Hout). assert (Hi : i < n) by (apply (proj1 (nth_error_Some lcs i)); rewrite E; discriminate).
      rewrite (skipn_cons i l E) in Hinv. cbn [concat] in Hinv.
      destruct (inline_spec (t_nwit st) (t_new st) i (concat (skipn (S i) lcs)) Hi ltac:(lia) l [] (t_map st) (t_used st)) as (out & m & used & H1 & H2 & H3 & H4);
        [exact (refs i l E)|exact Hinv|constructor|].
      unfold transform_entry. cbn [fst snd]. rewrite H1.
      pose proof (proj1 (proj2 H2) i Hi) as Hu. rewrite Hu.
      set (l' := deduplicate sort out). set (times := cnt i (concat (skipn (S i) lcs))).
      assert (C : Forall (fun t => concrete ni (t_nwit st) (snd t)) l') by (apply (deduplicate_vars K sort out (concrete ni (t_nwit st))); assumption).
      assert (Hv : forall I W, newok I W (t_new st) -> value I W [] l' = nth i (V I W) 0%fld).
      { intros I W Hn. unfold l'. rewrite (proj1 (deduplicate_spec K sort I W [] out Hsort)), (H4 I W Hn), value_nil, (Vok I W i l E). ring. }
      destruct (outline && worthwhile times (length l')) eqn:T.
      - apply andb_prop in T. destruct T as [T1 _].
        assert (Fresh : exists values, (if setup then Some [] else option_map (fun x => [x]) (eval_terms 1 inst (t_wit st) old l')) = Some values /\
                  (setup = true -> values = []) /\ (setup = false -> values = [value inst (t_wit st) [] l'])).
        { destruct setup; [exists []; repeat split; intros; congruence|]. destruct (prove_mode eq_refl) as [P1 P2]. destruct (Hprove eq_refl) as (ext & X1 & X2 & X3).
          unfold eval_terms. rewrite (fold_concrete 1 inst (t_wit st) old (t_nwit st) l' C); [|lia|rewrite X1, app_length; lia].
          exists [value inst (t_wit st) [] l']. cbn [option_map]. split; [do 2 f_equal; ring|]. split; [discriminate|reflexivity]. }
        destruct Fresh as (values & -> & V1 & V2).
        eexists. split; [reflexivity|]. unfold tinv. cbn [t_map t_used t_nwit t_wit t_new]. split; [|split; [|split; [|split; [|split; [|split]]]]].
        + apply (push (t_nwit st) (t_new st)); [exact H2|lia| |].
          * intros I W Hn. apply Forall_app in Hn. exact (proj1 Hn).
          * split; [constructor; [cbn; lia|constructor]|]. intros I W Hn. apply Forall_app in Hn. destruct Hn as [Hn1 Hn2]. inversion_clear Hn2 as [|? ? Hw _].
            rewrite value_cons, value_nil. cbn [fst snd val] in *. rewrite Hw, (Hv I W Hn1). ring.
        + rewrite app_length. cbn [length]. lia.
        + rewrite map_app, app_length, Hseq. cbn [map length snd]. rewrite seq_app, Hnw. reflexivity.
        + intros e w Hin. apply in_app_or in Hin. destruct Hin as [Hin|[Hin|[]]]; [exact (Hnew e w Hin)|]. injection Hin as <- <-. exact C.
        + intros Hs. destruct (Hprove Hs) as (ext & X1 & X2 & X3). exists (ext ++ values). rewrite (V2 Hs). rewrite X1, app_assoc, !app_length, X2. split; [reflexivity|]. split; [reflexivity|].
          destruct (prove_mode Hs) as [P1 P2]. rewrite <- X1.
          assert (Lw : length (t_wit st) = t_nwit st) by (rewrite X1, app_length; lia).
          assert (Pre : forall e w, w <= t_nwit st -> Forall (fun t => concrete ni w (snd t)) e -> value inst (t_wit st ++ [value inst (t_wit st) [] l']) [] e = value inst (t_wit st) [] e).
          { intros e w Hw Ce. apply (concrete_prefix ni w); [exact Ce|]. intros j Hj. apply app_nth1. lia. }
          apply Forall_app. split.
          * apply Forall_forall. intros [e w] Hin. cbn [fst snd]. assert (Bw : w < t_nwit st).
            { assert (Hin' : In w (map snd (t_new st))) by (apply (in_map snd _ _ Hin)). rewrite Hseq in Hin'. apply in_seq in Hin'. lia. }
            rewrite (Pre e w ltac:(lia) (Hnew e w Hin)), app_nth1 by lia. exact (proj1 (Forall_forall _ _) X3 (e, w) Hin).
          * constructor; [|constructor]. cbn [fst snd]. rewrite (Pre l' (t_nwit st) ltac:(lia) C). rewrite <- Lw at 1. rewrite app_nth2, Nat.sub_diag by lia. reflexivity.
        + intros Hs. rewrite (V1 Hs), app_nil_r. exact (Hset Hs).
        + intros Ho. congruence.
      - eexists. split; [reflexivity|]. unfold tinv. cbn [t_map t_used t_nwit t_wit t_new]. split; [|split; [|split; [|split; [|split; [|split]]]]]; try assumption.
        apply (push (t_nwit st) (t_new st)); [exact H2|lia|auto|]. split; [exact C|exact Hv].
    Qed.

    Lemma loop_spec old : forall ls i st, skipn i lcs = ls -> i + length ls = n -> tinv i st ->
      exists st', transform_loop sort outline setup inst old (combine (seq i (length ls)) ls) st = Some st' /\ tinv n st'.
    Proof using Hsort Vok prove_mode refs.
      induction ls as [|l ls IH]; intros i st Hs Hn T; cbn [length seq combine transform_loop].
      - exists st. split; [reflexivity|]. cbn [length] in Hn. rewrite Nat.add_0_r in Hn. rewrite <- Hn. exact T.
      - assert (E : nth_error lcs i = Some l).
        { clear -Hs. revert i Hs. induction lcs as [|x r IH]; intros [|i] Hs; cbn in *; try discriminate; [congruence|apply IH; exact Hs]. }
        destruct (entry_spec old i l st E T) as (st1 & E1 & T1). rewrite E1. apply (IH (S i) st1); [|cbn [length] in Hn; lia|exact T1].
        rewrite (skipn_cons i l E) in Hs. congruence.
    Qed.
    Lemma transform_spec : exists used st, compute_times_used false entries = Some used /\
      transform_loop sort outline setup inst entries entries (mk_t [] used nw0 wit0 []) = Some st /\ tinv n st.
    Proof using Hsort Vok prove_mode refs.
      destruct compute_spec as (u & H1 & H2 & H3). exists u.
      destruct (loop_spec entries lcs 0 (mk_t [] u nw0 wit0 [])) as (st & H4 & H5); [reflexivity|reflexivity| |exists st; split; [exact H1|split; [exact H4|exact H5]]].
      unfold tinv. cbn [t_map t_used t_nwit t_wit t_new length skipn]. split; [|split; [lia|split; [reflexivity|split; [intros e w []|split; [|split; reflexivity]]]]].
      - unfold inv. split; [exact H2|]. split; [exact H3|]. split; [reflexivity|]. split; [intros j Hj; lia|]. intros j e H. discriminate H.
      - intros _. exists []. rewrite app_nil_r. repeat split; constructor.
    Qed.
  End Transform.
End Finalize.
