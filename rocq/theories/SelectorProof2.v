(** The columns and expressions built for the combinations. *)
From Coq Require Import List Arith Bool Lia Permutation Ring Field Field_theory Sorted.
From Verif Require Import Field ExprModel ExprSpec SelectorModel SelectorProof.
Import ListNotations.

Lemma Forall2_app_inv {A B} (P : A -> B -> Prop) l1 m1 l2 m2 : Forall2 P l1 m1 -> Forall2 P l2 m2 -> Forall2 P (l1 ++ l2) (m1 ++ m2).
Proof. intros H1 H2. induction H1; cbn; [exact H2|constructor; assumption]. Qed.
Lemma Forall2_weaken {A B} (P Q : A -> B -> Prop) l m : (forall a b, P a b -> Q a b) -> Forall2 P l m -> Forall2 Q l m.
Proof. intros H H1. induction H1; constructor; auto. Qed.

Lemma pick_spec {A} (l : list A) : forall is, (forall i, In i is -> i < length l) -> exists c, pick l is = Some c /\ length c = length is /\
  forall k i, nth_error is k = Some i -> nth_error c k = nth_error l i.
Proof.
  induction is as [|i is IH]; intros H; [exists []; repeat split; intros [|k] i E; discriminate|].
  destruct (nth_error l i) as [x|] eqn:E; [|apply nth_error_None in E; specialize (H i (or_introl eq_refl)); lia].
  destruct IH as [c [E1 [E2 E3]]]; [intros j Hj; apply H; right; exact Hj|]. cbn [pick]. rewrite E, E1. eexists. split; [reflexivity|]. split; [cbn; lia|].
  intros [|k] j Ej; [injection Ej as ->; rewrite E; reflexivity|]. cbn in *. apply E3. exact Ej.
Qed.


Section Compress.
  Variable K : fld.
  Add Field Kf_sel : (fld_theory K).
  Open Scope fld_scope.

  Lemma write_root_spec (root : K) : forall col acts, length acts = length col ->
    exists col', write_root col acts root = Some col' /\ length col' = length col /\
      forall r, r < length col -> nth r col' 0 = if nth r acts false then root else nth r col 0.
  Proof.
    induction col as [|c col IH]; intros acts H.
    - exists []. repeat split. intros r Hr. cbn in Hr. lia.
    - destruct acts as [|a acts]; [discriminate|]. cbn in H. destruct (IH acts) as [col' [E [L Hn]]]; [lia|].
      cbn [write_root]. rewrite E. eexists. split; [reflexivity|]. split; [cbn; lia|]. intros [|r] Hr; [cbn; destruct a; reflexivity|].
      cbn [nth]. apply Hn. cbn in Hr. lia.
  Qed.

  Fixpoint assigned (q : expr K) (index len : nat) (comb : list description) (root : K) : list (nat * nat * expr K) :=
    match comb with [] => [] | s :: r => (selector_index s, index, root_product q root len 1 q) :: assigned q index len r (root + 1) end.

  Definition pairwise_orth (comb : list description) : Prop :=
    forall i j a b, i <> j -> nth_error comb i = Some a -> nth_error comb j = Some b -> is_orthogonal a b = true.
  Lemma pairwise_tail s r : pairwise_orth (s :: r) -> pairwise_orth r.
  Proof. intros H i j a b N Ha Hb. apply (H (S i) (S j) a b); [congruence|exact Ha|exact Hb]. Qed.

  Lemma combined_loop_spec q index len : forall comb root col asg, Forall (fun s => length (activations s) = length col) comb -> pairwise_orth comb ->
    exists col', combined_loop q index len comb root col asg = Some (col', asg ++ assigned q index len comb root) /\ length col' = length col /\
      forall r, r < length col ->
        (forall k s, nth_error comb k = Some s -> nth r (activations s) false = true -> nth r col' 0 = root + fnat k) /\
        ((forall s, In s comb -> nth r (activations s) false = false) -> nth r col' 0 = nth r col 0).
  Proof.
    induction comb as [|s comb IH]; intros root col asg HF HO.
    - exists col. cbn [combined_loop assigned]. rewrite app_nil_r. repeat split; auto. intros k s E. destruct k; discriminate.
    - apply Forall_cons_iff in HF as [Hs HF]. cbn [combined_loop]. destruct (write_root_spec root col (activations s) Hs) as [c1 [-> [L1 N1]]].
      destruct (IH (root + 1) c1 (asg ++ [(selector_index s, index, root_product q root len 1 q)])) as [c2 [-> [L2 N2]]].
      { eapply Forall_impl; [|exact HF]. intros x Hx. cbv beta. rewrite L1. exact Hx. }
      { apply (pairwise_tail s). exact HO. }
      exists c2. cbn [assigned]. rewrite <- app_assoc. split; [reflexivity|]. split; [lia|]. intros r Hr.
      destruct (N2 r) as [A B]; [lia|]. split.
      + intros [|k] t Et Ht.
        * injection Et as ->. rewrite B.
          -- rewrite N1 by exact Hr. rewrite Ht. cbn [fnat]. ring.
          -- intros u Hu. apply In_nth_error in Hu as [j Hj]. apply (is_orthogonal_row t u r); [|exact Ht].
             apply (HO 0%nat (S j)); [discriminate|reflexivity|exact Hj].
        * rewrite (A k t Et Ht). cbn [fnat]. ring.
      + intros Hall. rewrite B by (intros u Hu; apply Hall; right; exact Hu). rewrite N1 by exact Hr. rewrite (Hall s (or_introl eq_refl)). reflexivity.
  Qed.

  Lemma assigned_nth q index len : forall comb root k s, nth_error comb k = Some s ->
    nth_error (assigned q index len comb root) k = Some (selector_index s, index, root_product q (root + fnat k) len 1 q).
  Proof.
    induction comb as [|t comb IH]; intros root k s E; [destruct k; discriminate|]. destruct k.
    - injection E as ->. cbn. do 3 f_equal. ring.
    - cbn [assigned nth_error] in *. rewrite (IH (root + 1) k s E). cbn [fnat]. do 3 f_equal. ring.
  Qed.
  Lemma assigned_length q index len : forall comb root, length (assigned q index len comb root) = length comb.
  Proof. induction comb; intros; cbn; [reflexivity|]. rewrite IHcomb. reflexivity. Qed.

  (** The value of the expression of one selector. *)
  Lemma root_product_zero (v : leaves K) q a : forall len root e, value v e = 0 -> value v (root_product q a len root e) = 0.
  Proof.
    induction len as [|len IH]; intros root e H; [exact H|]. cbn [root_product]. apply IH. destruct (feqb root a); [exact H|].
    cbn [value esub]. rewrite H. ring.
  Qed.
  Lemma root_product_hit (v : leaves K) q a : forall len root e k, k < len -> value v q = root + fnat k -> root + fnat k <> a ->
    value v (root_product q a len root e) = 0.
  Proof.
    induction len as [|len IH]; intros root e k Hk Hq Ha; [lia|]. cbn [root_product]. destruct k.
    - apply root_product_zero. destruct (feqb root a) eqn:E.
      + apply feqb_eq in E. exfalso. apply Ha. rewrite <- E. cbn. ring.
      + cbn [value esub]. rewrite Hq. cbn [fnat]. ring.
    - apply (IH (root + 1) _ k); [lia| |].
      + rewrite Hq. cbn [fnat]. ring.
      + intros E. apply Ha. rewrite <- E. cbn [fnat]. ring.
  Qed.
  Lemma root_product_same (v : leaves K) q a : value v q = a -> forall len root e, value v e <> 0 -> value v (root_product q a len root e) <> 0.
  Proof.
    intros Hq. induction len as [|len IH]; intros root e H; [exact H|]. cbn [root_product]. apply IH. destruct (feqb root a) eqn:E; [exact H|].
    cbn [value esub]. apply fmul_neq0; [exact H|]. rewrite Hq. apply feqb_neq in E. intros Z. apply E. apply fsub_eq0. rewrite <- Z. ring.
  Qed.

  Lemma fnat_add (a b : nat) : (fnat (a + b) : K) = fnat a + fnat b.
  Proof. induction a; cbn [fnat Nat.add]; [ring|]. rewrite IHa. ring. Qed.
  Lemma fnat_inj (N : nat) : (forall k, 0 < k <= N -> (fnat k : K) <> 0) -> forall a b, a <= N -> b <= N -> (fnat a : K) = fnat b -> a = b.
  Proof.
    intros H.
    assert (W : forall a b, a <= b -> b <= N -> (fnat a : K) = fnat b -> a = b).
    { intros a b Hab Hb E. destruct (Nat.eq_dec a b) as [|N']; [assumption|exfalso]. apply (H (b - a)%nat); [lia|].
      replace b with (a + (b - a))%nat in E by lia. rewrite fnat_add in E.
      transitivity (fnat a + fnat (b - a) - fnat a : K); [ring|]. rewrite <- E. ring. }
    intros a b Ha Hb E. destruct (Nat.le_ge_cases a b); [apply W; assumption|symmetry; apply W; auto].
  Qed.

  (** In a combination, with the query reading the column, the expression is non-zero exactly where the selector is on. *)
  Lemma selected (v : leaves K) q comb col n k s r : (forall k, 0 < k <= length comb -> (fnat k : K) <> 0) ->
    pairwise_orth comb -> r < n ->
    (forall k s, nth_error comb k = Some s -> nth r (activations s) false = true -> nth r col 0 = 1 + fnat k) ->
    ((forall s, In s comb -> nth r (activations s) false = false) -> nth r col 0 = 0) ->
    nth_error comb k = Some s -> value v q = nth r col 0 ->
    (value v (root_product q (1 + fnat k) (length comb) 1 q) <> 0 <-> nth r (activations s) false = true).
  Proof.
    intros Hc HO Hr A B Ek Hq. split.
    - intros Hne. destruct (nth r (activations s) false) eqn:Es; [reflexivity|exfalso]. apply Hne.
      destruct (existsb (fun t => nth r (activations t) false) comb) eqn:Ex.
      + apply existsb_exists in Ex as [t [Ht Et]]. apply In_nth_error in Ht as [j Hj].
        rewrite (A j t Hj Et) in Hq. assert (j < length comb) by (apply nth_error_Some; congruence).
        assert (k < length comb) by (apply nth_error_Some; congruence).
        apply (root_product_hit v q _ (length comb) 1 q j); [assumption|exact Hq|].
        intros E. assert (S j = S k).
        { apply (fnat_inj (length comb) Hc); [lia|lia|]. cbn [fnat]. exact E. }
        assert (j = k) by lia. subst j. congruence.
      + apply root_product_zero. rewrite Hq. apply B. intros t Ht. destruct (nth r (activations t) false) eqn:Et; [|reflexivity].
        assert (existsb (fun t => nth r (activations t) false) comb = true) by (apply existsb_exists; exists t; auto). congruence.
    - intros Hs. rewrite (A k s Ek Hs) in Hq. assert (k < length comb) by (apply nth_error_Some; congruence).
      apply root_product_same; [exact Hq|]. rewrite Hq. apply (Hc (S k)). lia.
  Qed.

  Lemma root_product_degree (q : expr K) (a : K) : degree q <= 1 -> forall len root e, degree (root_product q a len root e) <= degree e + len.
  Proof.
    intros Hq. induction len as [|len IH]; intros root e; cbn [root_product]; [lia|]. etransitivity; [apply IH|].
    destruct (feqb root a); [lia|]. cbn [degree esub]. lia.
  Qed.
  Lemma root_product_degree' (q : expr K) (a : K) : degree q <= 1 -> forall len root e k, k < len -> a = root + fnat k ->
    degree (root_product q a len root e) <= degree e + len - 1.
  Proof.
    intros Hq. induction len as [|len IH]; intros root e k Hk Ha; [lia|]. cbn [root_product]. destruct k.
    - assert (E : feqb root a = true) by (apply feqb_eq; rewrite Ha; cbn; ring). rewrite E.
      etransitivity; [apply root_product_degree; exact Hq|]. lia.
    - etransitivity; [apply (IH (root + 1) _ k)|]; [lia|rewrite Ha; cbn [fnat]; ring|].
      destruct (feqb root a); [lia|]. cbn [degree esub]. lia.
  Qed.

  (** The state after some selectors [D] (in order) have been assigned. *)
  Variable query : nat -> expr K.
  Variable n : nat.
  Variable P : list K -> description -> nat -> expr K -> Prop.
  Definition good (D : list description) (st : result K) : Prop :=
    let '(cols, asg, calls) := st in
    calls = length cols /\ Forall (fun c => length c = n) cols /\
    Forall2 (fun s (a : nat * nat * expr K) => fst (fst a) = selector_index s /\ snd (fst a) < length cols /\ P (nth (snd (fst a)) cols []) s (snd (fst a)) (snd a)) D asg.

  Lemma good_zero : (forall s c, max_degree_of s = 0%nat -> length (activations s) = n -> P (map (fun b : bool => if b then (1 : K) else 0) (activations s)) s c (query c)) ->
    forall sels D st, Forall (fun s => length (activations s) = n) sels -> good D st ->
    exists st', zero_degree query sels st = (filter (fun s => negb (max_degree_of s =? 0)) sels, st') /\
      good (D ++ filter (fun s => max_degree_of s =? 0) sels) st'.
  Proof.
    intros HP. induction sels as [|s sels IH]; intros D st HF HG.
    - exists st. cbn. rewrite app_nil_r. split; [reflexivity|exact HG].
    - apply Forall_cons_iff in HF as [Hs HF]. cbn [zero_degree filter]. destruct (max_degree_of s =? 0) eqn:E; cbn [negb].
      + destruct st as [[cols asg] calls]. destruct HG as [Hc [HF' H2]]. 
        edestruct (IH (D ++ [s])) as [st' [E' G']]; [exact HF| |exists st'; split; [exact E'|]].
        * split; [rewrite app_length; cbn; lia|]. split.
          -- apply Forall_app. split; [exact HF'|]. constructor; [|constructor]. rewrite map_length. exact Hs.
          -- apply Forall2_app_inv.
             ++ eapply Forall2_weaken; [|exact H2]. intros x a [A1 [A2 A3]]. split; [exact A1|]. rewrite app_length. split; [lia|]. rewrite app_nth1 by exact A2. exact A3.
             ++ constructor; [|constructor]. cbn [fst snd]. split; [reflexivity|]. rewrite app_length. split; [cbn; lia|].
                rewrite app_nth2, Nat.sub_diag by lia. cbn [nth]. rewrite Hc. apply HP; [apply Nat.eqb_eq; exact E|exact Hs].
        * rewrite <- app_assoc in G'. exact G'.
      + destruct (IH D st HF HG) as [st' [-> G']]. exists st'. split; [reflexivity|exact G'].
  Qed.

  Lemma good_combined (comb : list description) D st :
    (forall col c k s, length col = n -> nth_error comb k = Some s ->
       (forall r, r < n -> (forall k s, nth_error comb k = Some s -> nth r (activations s) false = true -> nth r col 0 = 1 + fnat k) /\
                           ((forall s, In s comb -> nth r (activations s) false = false) -> nth r col 0 = 0)) ->
       P col s c (root_product (query c) (1 + fnat k) (length comb) 1 (query c))) ->
    Forall (fun s => length (activations s) = n) comb -> pairwise_orth comb -> good D st ->
    exists st', construct_combined query n comb st = Some st' /\ good (D ++ comb) st'.
  Proof.
    intros HP HF HO HG. destruct st as [[cols asg] calls]. destruct HG as [Hc [HF' H2]]. unfold construct_combined.
    destruct (combined_loop_spec (query calls) (length cols) (length comb) comb 1 (repeat 0 n) asg) as [col [-> [L Hn]]].
    { eapply Forall_impl; [|exact HF]. intros s Hs. cbv beta. rewrite repeat_length. exact Hs. }
    { exact HO. }
    rewrite repeat_length in L, Hn.
    eexists. split; [reflexivity|]. split; [rewrite app_length; cbn; lia|]. split.
    - apply Forall_app. split; [exact HF'|]. constructor; [exact L|constructor].
    - apply Forall2_app_inv.
      + eapply Forall2_weaken; [|exact H2]. intros x a [A1 [A2 A3]]. split; [exact A1|]. rewrite app_length. split; [lia|]. rewrite app_nth1 by exact A2. exact A3.
      + assert (W : forall l m, length l = length m -> (forall k s a, nth_error l k = Some s -> nth_error m k = Some a ->
          fst (fst a) = selector_index s /\ snd (fst a) < length (cols ++ [col]) /\ P (nth (snd (fst a)) (cols ++ [col]) []) s (snd (fst a)) (snd a)) ->
          Forall2 (fun s (a : nat * nat * expr K) => fst (fst a) = selector_index s /\ snd (fst a) < length (cols ++ [col]) /\ P (nth (snd (fst a)) (cols ++ [col]) []) s (snd (fst a)) (snd a)) l m).
        { clear. induction l as [|s l IH]; intros [|a m] HL H; try discriminate; constructor.
          - apply (H 0%nat); reflexivity.
          - apply IH; [cbn in HL; lia|]. intros k s' a' H1 H2. apply (H (S k) s' a' H1 H2). }
        apply W; [rewrite assigned_length; reflexivity|]. intros k s a Es Ea.
        rewrite (assigned_nth _ _ _ comb 1 k s Es) in Ea. injection Ea as <-. cbn [fst snd]. split; [reflexivity|].
        rewrite app_length. split; [cbn; lia|]. rewrite app_nth2, Nat.sub_diag by lia. cbn [nth]. rewrite Hc.
        apply HP; [exact L|exact Es|]. intros r Hr. destruct (Hn r Hr) as [A B]. split; [exact A|]. intros Hall. rewrite B by exact Hall. apply nth_repeat.
  Qed.

  Lemma good_all sels md : 
    (forall comb col c k s, In comb (map (fun is => match pick sels is with Some c => c | None => [] end) md) -> length col = n -> nth_error comb k = Some s -> pairwise_orth comb ->
       (forall r, r < n -> (forall k s, nth_error comb k = Some s -> nth r (activations s) false = true -> nth r col 0 = 1 + fnat k) /\
                           ((forall s, In s comb -> nth r (activations s) false = false) -> nth r col 0 = 0)) ->
       P col s c (root_product (query c) (1 + fnat k) (length comb) 1 (query c))) ->
    Forall (fun s => length (activations s) = n) sels ->
    forall D st, Forall (fun is => (forall i, In i is -> i < length sels) /\ NoDup is /\ (forall i j, In i is -> In j is -> i <> j -> orth_at sels i j)) md ->
    good D st ->
    exists st' D', construct_all query n sels md st = Some st' /\ good (D ++ D') st' /\ Permutation D' (concat (map (fun is => match pick sels is with Some c => c | None => [] end) md)).
  Proof.
    intros HP HF. induction md as [|is md IH]; intros D st Hcs HG.
    - exists st, []. cbn. rewrite app_nil_r. repeat split; [exact HG|constructor].
    - apply Forall_cons_iff in Hcs as [[Hlt [ND HO]] Hcs]. cbn [construct_all map concat] in *. destruct (pick_spec sels is Hlt) as [c [E1 [E2 E3]]]. rewrite E1 in *.
      assert (HOc : pairwise_orth c).
      { intros i j a b N Ha Hb. assert (Li : i < length is) by (rewrite <- E2; apply nth_error_Some; congruence).
        assert (Lj : j < length is) by (rewrite <- E2; apply nth_error_Some; congruence).
        pose proof (nth_error_nth' is 0%nat Li) as Ei. pose proof (nth_error_nth' is 0%nat Lj) as Ej.
        apply (HO (nth i is 0%nat) (nth j is 0%nat)).
        - eapply nth_error_In. exact Ei.
        - eapply nth_error_In. exact Ej.
        - intros E. apply N. apply (proj1 (NoDup_nth is 0%nat) ND); assumption.
        - rewrite <- (E3 i _ Ei). exact Ha.
        - rewrite <- (E3 j _ Ej). exact Hb. }
      assert (HFc : Forall (fun s => length (activations s) = n) c).
      { apply Forall_forall. intros s Hs. apply In_nth_error in Hs as [k Hk]. assert (Lk : k < length is) by (rewrite <- E2; apply nth_error_Some; congruence).
        rewrite (E3 k _ (nth_error_nth' is 0%nat Lk)) in Hk. apply nth_error_In in Hk. rewrite Forall_forall in HF. apply HF. exact Hk. }
      destruct (good_combined c D st) as [st1 [-> G1]]; auto.
      { intros col cc k s Hl Hk Hr. apply (HP c); auto. left. reflexivity. }
      destruct (IH (fun comb col cc k s Hin => HP comb col cc k s (or_intror Hin)) (D ++ c) st1 Hcs G1) as [st2 [D' [E [G2 Pm]]]].
      exists st2, (c ++ D'). split; [exact E|]. split; [rewrite app_assoc; exact G2|]. apply Permutation_app_head. exact Pm.
  Qed.
End Compress.
