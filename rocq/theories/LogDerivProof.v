(** The binary search and the multiplicities. *)
From Coq Require Import ZArith List Arith Bool Lia Permutation Sorted Ring Field Field_theory.
From Verif Require Import Field GrandProductModel GrandProductSpec LogDerivModel LogDerivSpec.
Import ListNotations.
Open Scope nat_scope.

Section Search.
  Context {A : Type}.
  Variable key : A -> Z.

  Lemma sorted_nth : forall (t : list A), StronglySorted (fun x y => (key x <= key y)%Z) t -> forall i j x y, i <= j -> nth_error t i = Some x -> nth_error t j = Some y -> (key x <= key y)%Z.
  Proof.
    intros t H. induction H as [|a t H IH HF]; intros i j x y Hij Hx Hy; [destruct i; discriminate|].
    destruct i as [|i], j as [|j]; cbn in Hx, Hy.
    - injection Hx as <-. injection Hy as <-. lia.
    - injection Hx as <-. rewrite Forall_forall in HF. apply HF. now apply nth_error_In in Hy.
    - lia.
    - apply (IH i j); auto. lia.
  Qed.

  Lemma search_ok : forall (t : list A) v, StronglySorted (fun x y => (key x <= key y)%Z) t ->
    forall fuel left right, right <= length t -> right - left < fuel ->
    (forall i x, i < left -> nth_error t i = Some x -> (key x < v)%Z) -> (forall i x, right <= i -> nth_error t i = Some x -> (v < key x)%Z) ->
    exists r, binary_search key t v fuel left right = Some r /\
      match r with
      | Some p => exists x, nth_error t p = Some x /\ key x = v
      | None => forall x, In x t -> key x <> v
      end.
  Proof.
    intros t v HS. induction fuel as [|fuel IH]; intros left right HR HF HL HG; [lia|]. cbn [binary_search].
    destruct (Nat.ltb_spec left right) as [C|C].
    - set (mid := left + (right - left) / 2). assert (Hm : left <= mid < right).
      { unfold mid. pose proof (Nat.div_lt (right - left) 2 ltac:(lia) ltac:(lia)). lia. }
      destruct (nth_error t mid) as [x|] eqn:E; [|apply nth_error_None in E; lia].
      destruct (Z.ltb_spec (key x) v) as [C1|C1]; [|destruct (Z.ltb_spec v (key x)) as [C2|C2]].
      + apply IH; [lia|lia| |exact HG]. intros i y Hi Hy. pose proof (sorted_nth t HS i mid y x ltac:(lia) Hy E). lia.
      + apply IH; [lia|lia|exact HL|]. intros i y Hi Hy. pose proof (sorted_nth t HS mid i x y ltac:(lia) E Hy). lia.
      + exists (Some mid). split; [reflexivity|]. exists x. split; [exact E|lia].
    - exists None. split; [reflexivity|]. intros x Hx. apply In_nth_error in Hx. destruct Hx as (i & Hi).
      destruct (Nat.lt_ge_cases i left) as [Hl|Hl]; [specialize (HL i x Hl Hi); lia|]. specialize (HG i x ltac:(lia) Hi). lia.
  Qed.

  Theorem binary_search_ok : forall (t : list A) v, StronglySorted (fun x y => (key x <= key y)%Z) t ->
    exists r, binary_search_by_key key t v = Some r /\
      match r with
      | Some p => exists x, nth_error t p = Some x /\ key x = v
      | None => forall x, In x t -> key x <> v
      end.
  Proof.
    intros t v HS. apply (search_ok t v HS); try lia. intros i x Hi Hx. apply nth_error_Some_lt in Hx || (assert (nth_error t i <> None) as Hn by congruence; apply nth_error_Some in Hn; lia).
  Qed.
End Search.

Lemma self_map : forall c u, length c = u -> map (fun i => nth i c 0) (seq 0 u) = c.
Proof. intros c u <-. induction c as [|y l IH]; [reflexivity|]. cbn [length seq map nth]. f_equal. rewrite <- seq_shift, map_map. exact IH. Qed.
Lemma nth_tab : forall (f : nat -> nat) u i, i < u -> nth i (map f (seq 0 u)) 0 = f i.
Proof. intros f u i H. rewrite (nth_indep _ 0 (f 0)) by (rewrite map_length, seq_length; lia). rewrite map_nth, seq_nth by lia. reflexivity. Qed.
Lemma bump_ok : forall l i, i < length l -> bump l i = Some (map (fun k => nth k l 0 + (if k =? i then 1 else 0)) (seq 0 (length l))).
Proof.
  induction l as [|x l IH]; intros i Hi; [cbn in Hi; lia|]. destruct i as [|i]; cbn [bump length seq map nth].
  - rewrite Nat.eqb_refl. f_equal. f_equal; [lia|]. rewrite <- seq_shift, map_map. cbn [nth]. rewrite <- (self_map l _ eq_refl) at 1. apply map_ext. intros k. cbn. lia.
  - cbn in Hi. rewrite IH by lia. cbn [option_map]. f_equal. f_equal; [cbn; lia|]. rewrite <- seq_shift, map_map. apply map_ext. intros k. cbn [nth]. reflexivity.
Qed.

Lemma zeros_map : forall u s, map (fun _ : nat => 0) (seq s u) = repeat 0 u.
Proof. induction u as [|w IH]; intros s; [reflexivity|]. cbn [seq map repeat]. f_equal. apply IH. Qed.

Lemma pick_nat : forall (X : Type) (v : X) k (g : nat -> nat) w s, s <= k < s + w -> list_sum (map (fun i => length (if k =? i then [v] else []) * g i) (seq s w)) = g k.
Proof.
  intros X v k g. assert (Z : forall w s, k < s -> list_sum (map (fun i => length (if k =? i then [v] else []) * g i) (seq s w)) = 0).
  { induction w as [|w IH]; intros s H; [reflexivity|]. cbn [seq map list_sum fold_right]. destruct (Nat.eqb_spec k s); [lia|]. cbn [length]. change (fold_right Nat.add 0) with list_sum. rewrite IH by lia. reflexivity. }
  induction w as [|w IH]; intros s H; [lia|]. cbn [seq map list_sum fold_right]. change (fold_right Nat.add 0) with list_sum. destruct (Nat.eqb_spec k s) as [->|C]; cbn [length].
  - rewrite Z by lia. lia.
  - rewrite IH by lia. lia.
Qed.
Section Pick.
  Variable K : fld.
  Add Field Kld0 : (fld_theory K).
  Open Scope fld_scope.
  Lemma pick_field : forall (v : K) k (g : nat -> K) w s, (s <= k < s + w)%nat -> fsum (map (fun i => fnat (length (if (k =? i)%nat then [v] else [])) * g i) (seq s w)) = g k.
  Proof.
    intros v k g. assert (Z : forall w s, (k < s)%nat -> fsum (map (fun i => fnat (length (if (k =? i)%nat then [v] else [])) * g i) (seq s w)) = 0).
    { induction w as [|w IH]; intros s H; [reflexivity|]. cbn [seq map fsum]. destruct (Nat.eqb_spec k s); [lia|]. cbn [length fnat]. rewrite IH by lia. ring. }
    induction w as [|w IH]; intros s H; [lia|]. cbn [seq map fsum]. destruct (Nat.eqb_spec k s) as [->|C]; cbn [length fnat].
    - rewrite Z by lia. ring.
    - rewrite IH by lia. ring.
  Qed.
End Pick.

Section Counting.
  Variable K : fld.
  Variable big : K -> Z.
  Hypothesis big_inj : forall x y, big x = big y -> x = y.
  Variable sort : list (nat * Z) -> list (nat * Z).
  Hypothesis sort_ok : sorts_by_key sort.
  Variables (u : nat) (table : nat -> K).
  Let sorted := sort (map (fun i => (i, big (table i))) (seq 0 u)).

  (** Where an input is found. *)
  Definition found (v : K) : option nat :=
    match binary_search_by_key snd sorted (big v) with
    | Some (Some p) => option_map fst (nth_error sorted p)
    | _ => None
    end.
  Definition hits (i : nat) (vs : list K) : nat := length (filter (fun v => match found v with Some k => k =? i | None => false end) vs).

  Lemma found_some : forall v i, found v = Some i -> i < u /\ table i = v.
  Proof.
    intros v i H. unfold found in H. destruct (sort_ok (map (fun i => (i, big (table i))) (seq 0 u))) as [HP HS]. fold sorted in HP, HS.
    destruct (binary_search_ok snd sorted (big v) HS) as (r & E & Hr). rewrite E in H. destruct r as [p|]; [|discriminate].
    destruct Hr as (x & Hx & Hk). rewrite Hx in H. cbn in H. injection H as <-. apply nth_error_In in Hx. apply (Permutation_in _ (Permutation_sym HP)) in Hx. apply in_map_iff in Hx.
    destruct Hx as (k & <- & Hi). apply in_seq in Hi. cbn in *. split; [lia|]. now apply big_inj.
  Qed.
  Lemma found_none : forall v, found v = None -> forall i, i < u -> table i <> v.
  Proof.
    intros v H i Hi E0. unfold found in H. destruct (sort_ok (map (fun i => (i, big (table i))) (seq 0 u))) as [HP HS]. fold sorted in HP, HS.
    destruct (binary_search_ok snd sorted (big v) HS) as (r & E & Hr). rewrite E in H. destruct r as [p|].
    - destruct Hr as (x & Hx & _). rewrite Hx in H. discriminate.
    - apply (Hr (i, big (table i))); [|cbn; now rewrite E0]. apply (Permutation_in _ HP). apply in_map_iff. exists i. split; [reflexivity|]. apply in_seq. lia.
  Qed.
  Lemma count_one_ok : forall c v, length c = u -> count_one big sorted c v = Some (map (fun i => nth i c 0 + hits i [v]) (seq 0 u)).
  Proof.
    intros c v L. unfold count_one, hits. cbn [filter]. pose proof (found_some v) as FS. unfold found in *. destruct (sort_ok (map (fun i => (i, big (table i))) (seq 0 u))) as [HP HS]. fold sorted in HP, HS.
    destruct (binary_search_ok snd sorted (big v) HS) as (r & E & Hr). rewrite E in *. destruct r as [p|].
    - destruct Hr as (x & Hx & _). rewrite Hx in *. cbn [option_map] in *. destruct x as [k w]. cbn [fst] in *. destruct (FS k eq_refl) as [Hk _]. rewrite bump_ok by lia. rewrite L. f_equal.
      apply map_ext. intros i. rewrite (Nat.eqb_sym k i). now destruct (i =? k).
    - f_equal. cbn [length]. rewrite <- (self_map c u L) at 1. apply map_ext. intros k. lia.
  Qed.
  Lemma hits_cons : forall i v vs, hits i (v :: vs) = hits i [v] + hits i vs.
  Proof. intros i v vs. unfold hits. cbn [filter]. destruct (match found v with Some k => k =? i | None => false end); reflexivity. Qed.
  Lemma count_all_ok : forall vs c, length c = u -> count_all big sorted c vs = Some (map (fun i => nth i c 0 + hits i vs) (seq 0 u)).
  Proof.
    induction vs as [|v vs IH]; intros c L; cbn [count_all].
    - f_equal. unfold hits. cbn [filter length]. rewrite <- (self_map c u L) at 1. apply map_ext. intros k. lia.
    - rewrite count_one_ok by exact L. rewrite IH by (now rewrite map_length, seq_length). f_equal. apply map_ext_in. intros i Hi. apply in_seq in Hi. rewrite (hits_cons i v vs).
      rewrite nth_tab by lia. lia.
  Qed.
  Lemma hits_perm : forall i vs vs', Permutation vs vs' -> hits i vs = hits i vs'.
  Proof.
    intros i vs vs' H. induction H as [|x l l' H IH|x y l|l1 l2 l3 H1 IH1 H2 IH2]; [reflexivity| | |congruence].
    - rewrite (hits_cons i x l), (hits_cons i x l'). now rewrite IH.
    - rewrite (hits_cons i y (x :: l)), (hits_cons i x l), (hits_cons i x (y :: l)), (hits_cons i y l). lia.
  Qed.

  Theorem compute_m_ok : forall n visit, exists m,
    compute_m big sort n u table visit (repeat 0 u) = Some (m, repeat 0 u) /\ m = map (fun i => if i <? u then fnat (hits i visit) else (f0 : K)) (seq 0 n).
  Proof.
    intros n visit. eexists. split; [|reflexivity]. unfold compute_m. fold sorted. rewrite count_all_ok by apply repeat_length. f_equal. f_equal.
    - apply map_ext. intros i. destruct (Nat.ltb_spec i u) as [C|C]; [|reflexivity]. f_equal.
      rewrite nth_tab by lia. rewrite nth_repeat. reflexivity.
    - rewrite map_map. apply zeros_map.
  Qed.

  (** ** Sums weighted by the multiplicities. *)
  Lemma one_hit_nat : forall (h : K -> nat) v, list_sum (map (fun i => hits i [v] * h (table i)) (seq 0 u)) = match found v with Some _ => h v | None => 0 end.
  Proof.
    intros h v. unfold hits. cbn [filter]. destruct (found v) as [k|] eqn:E.
    - destruct (found_some v k E) as [Hk Ht]. transitivity (h (table k)); [|now rewrite Ht]. apply (pick_nat _ v k (fun i => h (table i)) u 0). lia.
    - cbn [length]. generalize (seq 0 u). intros l. induction l as [|x l IH]; [reflexivity|]. cbn. exact IH.
  Qed.
  Theorem weighted_nat : forall (h : K -> nat) vs, (forall v, In v vs -> (exists i, i < u /\ table i = v) \/ h v = 0) ->
    list_sum (map (fun i => hits i vs * h (table i)) (seq 0 u)) = list_sum (map h vs).
  Proof.
    intros h vs. induction vs as [|v vs IH]; intros H.
    - unfold hits. cbn [filter length map]. generalize (seq 0 u). intros l. induction l as [|x l IHl]; [reflexivity|]. cbn. exact IHl.
    - cbn [map list_sum fold_right]. change (fold_right Nat.add 0) with list_sum. rewrite <- IH by (intros w Hw; apply H; now right).
      assert (E : match found v with Some _ => h v | None => 0 end = h v).
      { destruct (found v) eqn:E; [reflexivity|]. destruct (H v) as [(i & Hi & Ht)|Hz]; [now left| |now symmetry]. exfalso. exact (found_none v E i Hi Ht). }
      rewrite <- E, <- (one_hit_nat h v). clear. generalize (seq 0 u). intros l. induction l as [|x l IHl]; [reflexivity|]. cbn [map list_sum fold_right]. change (fold_right Nat.add 0) with list_sum. rewrite IHl, (hits_cons x v vs). lia.
  Qed.
  Add Field Kld1 : (fld_theory K).
  Open Scope fld_scope.
  Lemma fnat_plus : forall a b, fnat (a + b) = fnat a + fnat b :> K.
  Proof. induction a as [|a IH]; intros b; cbn [plus fnat]; [ring|]. rewrite IH. ring. Qed.
  Lemma one_hit : forall (g : K -> K) v, fsum (map (fun i => fnat (hits i [v]) * g (table i)) (seq 0 u)) = match found v with Some _ => g v | None => 0 end.
  Proof.
    intros g0 v. unfold hits. cbn [filter]. destruct (found v) as [k|] eqn:E.
    - destruct (found_some v k E) as [Hk Ht]. transitivity (g0 (table k)); [|now rewrite Ht]. apply (pick_field K v k (fun i => g0 (table i)) u 0). lia.
    - cbn [length fnat]. generalize (seq 0 u). intros l. induction l as [|x l IH]; [reflexivity|]. cbn [map fsum]. rewrite IH. ring.
  Qed.
  Theorem weighted : forall (g : K -> K) vs, (forall v, In v vs -> exists i, (i < u)%nat /\ table i = v) ->
    fsum (map (fun i => fnat (hits i vs) * g (table i)) (seq 0 u)) = fsum (map g vs).
  Proof.
    intros g vs. induction vs as [|v vs IH]; intros H.
    - unfold hits. cbn [filter length map fnat fsum]. generalize (seq 0 u). intros l. induction l as [|x l IHl]; [reflexivity|]. cbn [map fsum]. rewrite IHl. ring.
    - cbn [map fsum]. rewrite <- IH by (intros w Hw; apply H; now right).
      assert (E : match found v with Some _ => g v | None => 0 end = g v).
      { destruct (found v) eqn:E; [reflexivity|]. destruct (H v) as (i & Hi & Ht); [now left|]. exfalso. exact (found_none v E i Hi Ht). }
      rewrite <- E, <- (one_hit g v). clear. generalize (seq 0 u). intros l. induction l as [|x l IHl]; [cbn; ring|]. cbn [map fsum]. rewrite IHl, (hits_cons x v vs), fnat_plus. ring.
  Qed.
End Counting.
