(** Proofs about circular_deque: a deque is a ring of cells seen from its first element. *)
From Coq Require Import List Arith Lia Bool.
From Verif Require Import ParallelizeModel ParallelizeProof DequeModel DequeSpec.
Import ListNotations.

Lemma nth_error_ext'' {A} (l r : list A) : (forall i, nth_error l i = nth_error r i) -> l = r.
Proof.
  revert r. induction l as [|x l IH]; intros [|y r] H; auto; try (specialize (H 0); discriminate).
  f_equal; [specialize (H 0); cbn in H; congruence|]. apply IH. intros i. exact (H (S i)).
Qed.
Lemma nth_error_repeat' {A} (x : A) n i : nth_error (repeat x n) i = if i <? n then Some x else None.
Proof.
  revert i. induction n; intros [|i]; cbn; auto. rewrite IHn. reflexivity.
Qed.
Lemma nth_error_skipn' {A} (l : list A) n i : nth_error (skipn n l) i = nth_error l (n + i).
Proof. revert l. induction n; intros [|x l]; cbn; auto. destruct i; reflexivity. Qed.
Lemma nth_error_firstn' {A} (l : list A) n i : nth_error (firstn n l) i = if i <? n then nth_error l i else None.
Proof.
  revert l i. induction n; intros [|x l] [|i]; cbn; auto.
  - match goal with |- _ = (if ?c then _ else _) => destruct c end; reflexivity.
  - rewrite IHn. reflexivity.
Qed.
Lemma nth_error_app' {A} (l r : list A) i : nth_error (l ++ r) i = if i <? length l then nth_error l i else nth_error r (i - length l).
Proof. destruct (Nat.ltb_spec i (length l)); [apply nth_error_app1|apply nth_error_app2]; lia. Qed.
Lemma nth_error_out {A} (l : list A) i : length l <= i -> nth_error l i = None.
Proof. apply nth_error_None. Qed.
Lemma nth_error_in {A} (l : list A) i : i < length l -> exists x, nth_error l i = Some x.
Proof. intros H. destruct (nth_error l i) eqn:E; [eauto|]. apply nth_error_None in E. lia. Qed.

Ltac cases := repeat match goal with
  | |- context [?a <? ?b] => destruct (Nat.ltb_spec a b)
  | |- context [?a <=? ?b] => destruct (Nat.leb_spec a b)
  | |- context [?a =? ?b] => destruct (Nat.eqb_spec a b)
  end.

Definition ix (c b k : nat) : nat := if b + k <? c then b + k else b + k - c.
Lemma mod_ix c b k : b < c -> k <= c -> (b + k) mod c = ix c b k.
Proof.
  intros Hb Hk. unfold ix. destruct (Nat.ltb_spec (b + k) c); [apply Nat.mod_small; lia|].
  replace (b + k) with (b + k - c + 1 * c) at 1 by lia. rewrite Nat.mod_add by lia. apply Nat.mod_small. lia.
Qed.
Lemma ix_lt c b k : b < c -> k <= c -> ix c b k < c.
Proof. unfold ix. cases; lia. Qed.
Lemma ix_inj c b i j : b < c -> i < c -> j < c -> ix c b i = ix c b j -> i = j.
Proof. unfold ix. cases; lia. Qed.
Lemma ix_0 c b : b < c -> ix c b 0 = b.
Proof. unfold ix. cases; lia. Qed.
Lemma ix_ix c b k j : b < c -> k + j <= c -> ix c (ix c b k) j = ix c b (k + j).
Proof. unfold ix. cases; lia. Qed.
Lemma ix_mod c b k j : b < c -> k + j <= c -> (ix c b k + j) mod c = ix c b (k + j).
Proof. intros. rewrite mod_ix by (try apply ix_lt; lia). apply ix_ix; lia. Qed.
Lemma ix_incr c b k : b < c -> k < c -> increment c (ix c b k) = ix c b (S k).
Proof. unfold ix, increment. cases; lia. Qed.
Lemma ix_decr c b k : b < c -> k < c -> decrement c (ix c b (S k)) = ix c b k.
Proof. unfold ix, decrement. cases; lia. Qed.
Lemma ix_surj c b i : b < c -> i < c -> exists k, k < c /\ ix c b k = i.
Proof.
  intros Hb Hi. destruct (Nat.le_gt_cases b i) as [L|G].
  - exists (i - b). unfold ix. cases; lia.
  - exists (i + c - b). unfold ix. cases; lia.
Qed.

Section Proof.
Variable T : Type.
Implicit Types (g : nat -> option T) (d : deque T) (l : list T) (b : nat).
Local Notation cells := (cells T).

Definition ring (u : cells) b g : Prop := b < length u /\ forall k, k < length u -> nth_error u (ix (length u) b k) = Some (g k).
Definition upd g (k : nat) (x : option T) : nat -> option T := fun j => if j =? k then x else g j.
Lemma ring_ext u b g h : ring u b g -> (forall k, k < length u -> g k = h k) -> ring u b h.
Proof. intros [H1 H2] E. split; [exact H1|]. intros k Hk. rewrite H2 by exact Hk. f_equal. auto. Qed.
Lemma ring_set u b g k x : ring u b g -> k < length u -> ring (set_nth (ix (length u) b k) x u) b (upd g k x).
Proof.
  intros [H1 H2] Hk. split; [rewrite set_nth_length; exact H1|]. intros j Hj. rewrite set_nth_length in *. unfold upd.
  destruct (Nat.eqb_spec j k) as [->|N].
  - eapply set_nth_same. apply H2. exact Hk.
  - rewrite set_nth_other; [apply H2; exact Hj|]. intros E. apply N. revert E. apply ix_inj; auto.
Qed.
Lemma ring_load u b g k : ring u b g -> k < length u -> load T (ix (length u) b k) u = g k.
Proof. intros [H1 H2] Hk. unfold load. rewrite H2 by exact Hk. destruct (g k); reflexivity. Qed.
Lemma ring_construct u b g k x : ring u b g -> k < length u -> g k = None ->
  exists u', construct T (ix (length u) b k) x u = Some u' /\ length u' = length u /\ ring u' b (upd g k (Some x)).
Proof.
  intros R Hk Hg. exists (set_nth (ix (length u) b k) (Some x) u). unfold construct. rewrite (proj2 R) by exact Hk. rewrite Hg.
  split; [reflexivity|]. split; [apply set_nth_length|]. apply ring_set; assumption.
Qed.
Lemma ring_destroy u b g k : ring u b g -> k < length u -> g k <> None ->
  exists u', destroy T (ix (length u) b k) u = Some u' /\ length u' = length u /\ ring u' b (upd g k None).
Proof.
  intros R Hk Hg. exists (set_nth (ix (length u) b k) None u). unfold destroy. rewrite (proj2 R) by exact Hk.
  destruct (g k) as [y|]; [|congruence].
  split; [reflexivity|]. split; [apply set_nth_length|]. apply ring_set; assumption.
Qed.
Lemma ring_move1 u b g i j : ring u b g -> i < length u -> j < length u -> i <> j -> g i <> None -> g j = None ->
  exists u', move1 T (ix (length u) b i) (ix (length u) b j) u = Some u' /\ length u' = length u /\
    ring u' b (upd (upd g j (g i)) i None).
Proof.
  intros R Hi Hj N Gi Gj. unfold move1. rewrite (ring_load u b g i R Hi). destruct (g i) as [x|] eqn:E; [|congruence].
  destruct (ring_construct u b g j x R Hj Gj) as (u1 & -> & L1 & R1). rewrite <- L1 in Hi |- *.
  destruct (ring_destroy u1 b _ i R1 Hi) as (u2 & E2 & L2 & R2).
  { unfold upd. destruct (Nat.eqb_spec i j); congruence. }
  exists u2. split; [exact E2|]. split; [congruence|]. exact R2.
Qed.
(** A run of [n] cells that is contiguous in memory. *)
Lemma ring_destruct_cells n : forall u b g k i, ring u b g -> k + n <= length u -> (n <> 0 -> i = ix (length u) b k) -> i + n <= length u ->
  (forall j, k <= j < k + n -> g j <> None) ->
  exists u', destruct_cells T i n u = Some u' /\ length u' = length u /\
    ring u' b (fun j => if (k <=? j) && (j <? k + n) then None else g j).
Proof.
  induction n as [|n IH]; intros u b g k i R Hk Hi Hin Hg; cbn [destruct_cells].
  - exists u. split; [reflexivity|]. split; [reflexivity|]. eapply ring_ext; [exact R|]. intros j Hj. cbn beta.
    replace ((k <=? j) && (j <? k + 0)) with false; [reflexivity|]. cases; cbn [andb]; lia.
  - destruct (ring_destroy u b g k R) as (u1 & E1 & L1 & R1); [lia|apply Hg; lia|]. specialize (Hi ltac:(lia)). rewrite <- Hi in E1. rewrite E1.
    destruct (IH u1 b _ (S k) (S i) R1) as (u2 & E2 & L2 & R2).
    + lia.
    + intros Hn0. rewrite L1, Hi. destruct R as [Hb _]. clear - Hb Hk Hin Hi Hn0. unfold ix in *. revert Hi Hin. cases; lia.
    + lia.
    + intros j Hj. unfold upd. destruct (Nat.eqb_spec j k); [lia|]. apply Hg. lia.
    + exists u2. split; [exact E2|]. split; [congruence|]. eapply ring_ext; [exact R2|]. intros j Hj. unfold upd.
      destruct (Nat.eqb_spec j k); cases; cbn [andb]; try reflexivity; lia.
Qed.
Lemma ring_destruct_range u b g i j : ring u b g -> i <= j < length u -> (forall k, i <= k < j -> g k <> None) ->
  exists u', destruct_range T (ix (length u) b i) (ix (length u) b j) u = Some u' /\ length u' = length u /\
    ring u' b (fun k => if (i <=? k) && (k <? j) then None else g k).
Proof.
  intros R Hij Hg. unfold destruct_range. set (c := length u) in *. pose proof (proj1 R) as Hb. fold c in Hb.
  destruct (Nat.eqb_spec (ix c b j) (ix c b i)) as [E|N].
  - apply ix_inj in E; try lia. subst j. exists u. split; [reflexivity|]. split; [reflexivity|]. eapply ring_ext; [exact R|].
    intros k Hk. cbn beta. replace ((i <=? k) && (k <? i)) with false; [reflexivity|]. cases; cbn [andb]; lia.
  - destruct (Nat.ltb_spec (ix c b i) (ix c b j)) as [L|G].
    + replace (ix c b j - ix c b i) with (j - i) by (unfold ix in *; revert L N; cases; lia).
      destruct (ring_destruct_cells (j - i) u b g i (ix c b i) R) as (u1 & E1 & L1 & R1); try (fold c; lia).
      * fold c. unfold ix in *. revert L N. cases; lia.
      * intros k Hk. apply Hg. lia.
      * exists u1. split; [exact E1|]. split; [exact L1|]. eapply ring_ext; [exact R1|]. intros k Hk. cbn beta. replace (i + (j - i)) with j by lia. reflexivity.
    + destruct (ring_destruct_cells (c - ix c b i) u b g i (ix c b i) R) as (u1 & E1 & L1 & R1); try (fold c).
      * unfold ix in *. revert G N. cases; lia.
      * reflexivity.
      * pose proof (ix_lt c b i Hb). lia.
      * intros k Hk. apply Hg. unfold ix in *. revert G N Hk. cases; lia.
      * rewrite E1.
        destruct (ring_destruct_cells (ix c b j) u1 b _ (i + (c - ix c b i)) 0 R1) as (u2 & E2 & L2 & R2); try rewrite L1; try (fold c).
        -- unfold ix in *. revert G N. cases; lia.
        -- unfold ix in *. revert G N. cases; lia.
        -- pose proof (ix_lt c b j Hb). lia.
        -- intros k Hk. replace ((i <=? k) && (k <? i + (c - ix c b i))) with false by (cases; cbn [andb]; lia).
           apply Hg. unfold ix in *. revert G N Hk. cases; lia.
        -- exists u2. split; [exact E2|]. split; [rewrite L2; exact L1|]. eapply ring_ext; [exact R2|]. intros k Hk. cbn beta.
           assert (X : i + (c - ix c b i) + ix c b j = j) by (unfold ix in *; revert G N; cases; lia).
           rewrite X. set (m := i + (c - ix c b i)) in *. assert (i <= m <= j) by lia. clearbody m.
           cases; cbn [andb]; try reflexivity; lia.
Qed.

Lemma move_cells_spec n : forall (f : cells) i (t : cells) j,
  (forall k, k < n -> exists x, nth_error f (i + k) = Some (Some x)) ->
  (forall k, k < n -> nth_error t (j + k) = Some None) ->
  exists f' t', move_cells T f i n t j = Some (f', t') /\
    (forall k, nth_error f' k = if (i <=? k) && (k <? i + n) then Some None else nth_error f k) /\
    (forall k, nth_error t' k = if (j <=? k) && (k <? j + n) then nth_error f (i + (k - j)) else nth_error t k).
Proof.
  induction n as [|n IH]; intros f i t j Hf Ht; cbn [move_cells].
  - exists f, t. split; [reflexivity|]. split; intros k; (replace (_ && _) with false; [reflexivity|]); cases; cbn [andb]; lia.
  - destruct (Hf 0 ltac:(lia)) as [x Hx]. rewrite Nat.add_0_r in Hx. pose proof (Ht 0 ltac:(lia)) as Hy. rewrite Nat.add_0_r in Hy.
    unfold load, construct, destroy. rewrite Hx, Hy.
    destruct (IH (set_nth i None f) (S i) (set_nth j (Some x) t) (S j)) as (f' & t' & E & F1 & F2).
    + intros k Hk. rewrite set_nth_other by lia. destruct (Hf (S k) ltac:(lia)) as [y Hy']. exists y. rewrite <- Hy'. f_equal. lia.
    + intros k Hk. rewrite set_nth_other by lia. rewrite <- (Ht (S k)) by lia. f_equal. lia.
    + exists f', t'. split; [exact E|]. split; intros k; rewrite ?F1, ?F2.
      * destruct (Nat.eq_dec k i) as [->|N].
        -- replace ((S i <=? i) && (i <? S i + n)) with false by (cases; cbn [andb]; lia). replace ((i <=? i) && (i <? i + S n)) with true by (cases; cbn [andb]; lia).
           eapply set_nth_same. exact Hx.
        -- rewrite set_nth_other by lia. cases; cbn [andb]; try reflexivity; lia.
      * destruct (Nat.eq_dec k j) as [->|N].
        -- replace ((S j <=? j) && (j <? S j + n)) with false by (cases; cbn [andb]; lia). replace ((j <=? j) && (j <? j + S n)) with true by (cases; cbn [andb]; lia).
           rewrite Nat.sub_diag, Nat.add_0_r, Hx. eapply set_nth_same. exact Hy.
        -- rewrite (set_nth_other (Some x)) by lia. cases; cbn [andb]; try reflexivity; try lia.
           rewrite set_nth_other by lia. f_equal. lia.
Qed.
Lemma release_spec (u : cells) : (forall k, k < length u -> nth_error u k = Some None) -> release T u = Some tt.
Proof.
  intros H. unfold release. replace (forallb _ u) with true; [reflexivity|]. symmetry. apply forallb_forall. intros x Hx.
  apply In_nth_error in Hx. destruct Hx as [n Hn]. assert (n < length u) by (apply nth_error_Some; congruence). rewrite H in Hn by assumption.
  injection Hn as <-. reflexivity.
Qed.
Lemma ring_release u b g : ring u b g -> (forall k, k < length u -> g k = None) -> release T u = Some tt.
Proof.
  intros [Hb R] H. apply release_spec. intros i Hi. destruct (ix_surj (length u) b i Hb Hi) as (k & Hk & <-). rewrite R by exact Hk. f_equal. auto.
Qed.

(** The abstraction relation. *)
Definition rep d l : Prop :=
  (buf d = [] /\ l = [] /\ dbegin d = dend d) \/
  (length l < icap T d /\ ring (buf d) (dbegin d) (nth_error l) /\ dend d = ix (icap T d) (dbegin d) (length l)).

Lemma rep_size d l : rep d l -> size T d = length l.
Proof.
  intros [(E & -> & H)|(H & [Hb _] & He)]; unfold size.
  - rewrite H, Nat.leb_refl. cbn. lia.
  - rewrite He. fold (icap T d) in Hb. unfold ix. cases; lia.
Qed.
Lemma rep_empty d l : rep d l -> is_empty T d = (length l =? 0).
Proof.
  intros [(E & -> & H)|(H & [Hb _] & He)]; unfold is_empty.
  - rewrite H. apply Nat.eqb_refl.
  - rewrite He. fold (icap T d) in Hb. unfold ix. cases; lia.
Qed.
Lemma rep_capacity d l : rep d l -> length l <= capacity T d.
Proof. intros [(E & -> & H)|(H & _ & _)]; cbn; [lia|]. unfold capacity. cases; lia. Qed.
Lemma rep_capacity_icap d l : rep d l -> icap T d <> 0 -> icap T d = S (capacity T d).
Proof. intros _ H. unfold capacity. cases; lia. Qed.

Lemma set_capacity_spec n d l : rep d l -> length l <= n ->
  exists d', set_capacity_to T n d = Some d' /\ rep d' l /\ icap T d' = n + 1 /\ dbegin d' = 0.
Proof.
  intros Hr Hn. unfold set_capacity_to.
  assert (HT : forall t e, (forall k, nth_error t k = if k <? n + 1 then Some (nth_error l k) else None) -> e = length l ->
    rep (Deque t 0 e) l /\ icap T (Deque t 0 e) = n + 1 /\ dbegin (Deque t 0 e) = 0).
  { intros t e Ht ->.
    assert (L : length t = n + 1).
    { assert (A : nth_error t n <> None) by (rewrite Ht; cases; [discriminate|lia]).
      assert (B : nth_error t (n + 1) = None) by (rewrite Ht; cases; [lia|reflexivity]).
      apply nth_error_Some in A. apply nth_error_None in B. lia. }
    split; [|split; [exact L|reflexivity]]. right. unfold icap. cbn [buf dbegin dend]. rewrite L.
    split; [lia|]. split; [|unfold ix; cases; lia]. split; [lia|]. intros k Hk. rewrite L in *. rewrite Ht.
    assert (X : ix (n + 1) 0 k = k) by (unfold ix; cases; lia). rewrite X. destruct (Nat.ltb_spec k (n + 1)); [reflexivity|lia]. }
  assert (HN : forall k, nth_error (repeat (@None T) (n + 1)) k = if k <? n + 1 then Some None else None) by (intros; apply nth_error_repeat').
  destruct Hr as [(E & -> & H)|(H & [Hb R] & He)].
  - unfold move_buffer. rewrite H, Nat.ltb_irrefl, E. cbn [release forallb].
    destruct (HT (repeat None (n + 1)) 0) as [A B]; [|reflexivity|].
    + intros k. rewrite HN. cases; [|reflexivity]. destruct k; reflexivity.
    + eexists. split; [reflexivity|]. split; [exact A|exact B].
  - fold (icap T d) in *. set (c := icap T d) in *. unfold move_buffer. fold c.
    destruct (Nat.ltb_spec (dbegin d) (dend d)) as [L|G]; [|destruct (Nat.ltb_spec (dend d) (dbegin d)) as [L|G2]].
    + assert (Hm : dend d - dbegin d = length l /\ dbegin d + length l < c) by (rewrite He in *; unfold ix in *; revert L; cases; lia).
      destruct Hm as [-> Hm].
      assert (HR : forall k, k < length l -> nth_error (buf d) (dbegin d + k) = Some (nth_error l k)).
      { intros k Hk. rewrite <- R by lia. f_equal. unfold ix. cases; lia. }
      destruct (move_cells_spec (length l) (buf d) (dbegin d) (repeat None (n + 1)) 0) as (f & t & E & F1 & F2).
      { intros k Hk. rewrite HR by lia. destruct (nth_error_in l k Hk) as [x ->]. eauto. }
      { intros k Hk. rewrite HN. cases; [reflexivity|lia]. }
      rewrite E. rewrite release_spec.
      * destruct (HT t (length l)) as [A B]; [|reflexivity|eexists; split; [reflexivity|split; [exact A|exact B]]].
        intros k. rewrite F2, HN. cases; cbn [andb]; try lia; try reflexivity.
        -- rewrite HR by lia. do 2 f_equal. lia.
        -- rewrite (nth_error_out l) by lia. reflexivity.
      * assert (Lf : length f = c).
        { assert (A : forall k, k < c <-> nth_error f k <> None).
          { intros k. rewrite F1. unfold c, icap. rewrite <- nth_error_Some.
            destruct ((dbegin d <=? k) && (k <? dbegin d + length l)) eqn:C; [|reflexivity].
            split; [discriminate|]. intros _. apply nth_error_Some. fold (icap T d) c. apply andb_prop in C. destruct C as [_ C]. apply Nat.ltb_lt in C. lia. }
          destruct (Nat.lt_trichotomy (length f) c) as [X|[X|X]]; [|exact X|].
          - apply A in X. apply nth_error_Some in X. lia.
          - apply nth_error_Some in X. apply A in X. lia. }
        intros i Hi. rewrite F1. cases; cbn [andb]; try reflexivity.
        all: destruct (ix_surj c (dbegin d) i Hb) as (k & Hk & <-); [lia|]; rewrite R by exact Hk; rewrite (nth_error_out l); [reflexivity|].
        all: unfold ix in *; revert H0; try revert H1; cases; lia.
    + (* wrapped *)
      assert (Hm : c - dbegin d + dend d = length l /\ 0 < c - dbegin d) by (rewrite He in *; unfold ix in *; revert L; cases; lia).
      destruct Hm as [Hm Hm0]. set (rs := c - dbegin d) in *.
      change (length (buf d) - dbegin d) with rs.
      assert (HR1 : forall k, k < rs -> nth_error (buf d) (dbegin d + k) = Some (nth_error l k)).
      { intros k Hk. rewrite <- R by lia. f_equal. unfold ix. cases; lia. }
      assert (HR2 : forall k, k < dend d -> nth_error (buf d) k = Some (nth_error l (rs + k))).
      { intros k Hk. rewrite <- R by lia. f_equal. unfold ix. cases; lia. }
      destruct (move_cells_spec rs (buf d) (dbegin d) (repeat None (n + 1)) 0) as (f & t & E & F1 & F2).
      { intros k Hk. rewrite HR1 by lia. destruct (nth_error_in l k ltac:(lia)) as [x ->]. eauto. }
      { intros k Hk. rewrite HN. cases; [reflexivity|lia]. }
      rewrite E.
      destruct (move_cells_spec (dend d) f 0 t rs) as (f2 & t2 & E2 & F3 & F4).
      { intros k Hk. rewrite F1. cbn [Nat.add]. replace ((dbegin d <=? k) && (k <? dbegin d + rs)) with false by (cases; cbn [andb]; lia).
        rewrite HR2 by lia. destruct (nth_error_in l (rs + k) ltac:(lia)) as [x ->]. eauto. }
      { intros k Hk. rewrite F2, HN. cases; cbn [andb]; try lia; reflexivity. }
      rewrite E2. rewrite release_spec.
      * destruct (HT t2 (rs + dend d)) as [A B]; [|lia|eexists; split; [reflexivity|split; [exact A|exact B]]].
        intros k. rewrite F4, F2, HN, F1.
        destruct ((rs <=? k) && (k <? rs + dend d)) eqn:C.
        -- assert (rs <= k < rs + dend d) by (apply andb_prop in C; destruct C as [C1 C2]; apply Nat.leb_le in C1; apply Nat.ltb_lt in C2; lia).
           replace ((dbegin d <=? 0 + (k - rs)) && (0 + (k - rs) <? dbegin d + rs)) with false by (cases; cbn [andb]; lia).
           rewrite HR2 by lia. replace (k <? n + 1) with true by (cases; lia). do 2 f_equal. lia.
        -- assert (~ (rs <= k < rs + dend d)) by (intros X; revert C; cases; cbn [andb]; try lia; discriminate).
           cases; cbn [andb]; try lia; try reflexivity.
           ++ rewrite HR1 by lia. do 2 f_equal. lia.
           ++ rewrite (nth_error_out l) by lia. reflexivity.
      * assert (Lf : length f2 = c).
        { assert (A : forall k, k < c <-> nth_error f2 k <> None).
          { intros k. rewrite F3, F1. unfold c, icap. rewrite <- nth_error_Some.
            destruct ((0 <=? k) && (k <? 0 + dend d)) eqn:C; [|destruct ((dbegin d <=? k) && (k <? dbegin d + rs)) eqn:C2; [|reflexivity]].
            - split; [discriminate|]. intros _. apply nth_error_Some. fold (icap T d) c. apply andb_prop in C. destruct C as [_ C]. apply Nat.ltb_lt in C. lia.
            - split; [discriminate|]. intros _. apply nth_error_Some. fold (icap T d) c. apply andb_prop in C2. destruct C2 as [_ C2]. apply Nat.ltb_lt in C2. lia. }
          destruct (Nat.lt_trichotomy (length f2) c) as [X|[X|X]]; [|exact X|].
          - apply A in X. apply nth_error_Some in X. lia.
          - apply nth_error_Some in X. apply A in X. lia. }
        intros i Hi. rewrite F3, F1.
        destruct ((0 <=? i) && (i <? 0 + dend d)) eqn:C; [reflexivity|]. destruct ((dbegin d <=? i) && (i <? dbegin d + rs)) eqn:C2; [reflexivity|].
        assert (~ i < dend d) by (intros X; revert C; cases; cbn [andb]; try lia; discriminate).
        assert (i < dbegin d) by (revert C2; cases; cbn [andb]; try lia; discriminate).
        destruct (ix_surj c (dbegin d) i Hb) as (k & Hk & Hik); [lia|]. rewrite <- Hik, R by exact Hk. rewrite (nth_error_out l); [reflexivity|].
        unfold ix in Hik. revert Hik. cases; lia.
    + assert (length l = 0) by (rewrite He in *; unfold ix in *; revert G G2; cases; lia).
      assert (l = []) by (destruct l; [reflexivity|discriminate]). subst l.
      rewrite (ring_release (buf d) (dbegin d) (nth_error [])); [|split; assumption|intros [|k] _; reflexivity].
      destruct (HT (repeat None (n + 1)) 0) as [A B]; [|reflexivity|eexists; split; [reflexivity|split; [exact A|exact B]]].
      intros k. rewrite HN. cases; [|reflexivity]. destruct k; reflexivity.
Qed.

Lemma expand_spec n d l : rep d l ->
  exists d', expand_capacity T n d = Some d' /\ rep d' l /\ length l + n <= capacity T d' /\
    (n <> 0 -> icap T d' = S (capacity T d')) /\ (length l + n <= capacity T d -> d' = d).
Proof.
  intros Hr. unfold expand_capacity. rewrite (rep_size d l Hr). destruct (Nat.leb_spec (length l + n) (capacity T d)) as [L|G].
  - exists d. split; [reflexivity|]. split; [exact Hr|]. split; [exact L|]. split; [|auto]. intros Hn. unfold capacity in *. revert L. cases; lia.
  - destruct (set_capacity_spec (max (max (length l + n) initial_capacity) (capacity T d + capacity T d / 4)) d l Hr) as (d' & E & R & C & _); [lia|].
    exists d'. split; [exact E|]. split; [exact R|]. assert (X : icap T d' = S (capacity T d')) by (unfold capacity; cases; lia).
    split; [lia|]. split; [auto|lia].
Qed.
Lemma shrink_spec d l : rep d l -> exists d', shrink_capacity T d = Some d' /\ rep d' l.
Proof.
  intros Hr. unfold shrink_capacity. rewrite (rep_size d l Hr).
  destruct (capacity T d <=? initial_capacity); [eauto|]. destruct (capacity T d - length l <? length l); [eauto|].
  destruct (_ <? capacity T d); [|eauto].
  destruct (set_capacity_spec (max initial_capacity (length l + length l / 4)) d l Hr) as (d' & E & R & _); [lia|]. eauto.
Qed.

Lemma rep_ring d l : rep d l -> icap T d <> 0 -> length l < icap T d /\ ring (buf d) (dbegin d) (nth_error l) /\ dend d = ix (icap T d) (dbegin d) (length l).
Proof. intros [(E & _)|H] N; [|exact H]. exfalso. apply N. unfold icap. rewrite E. reflexivity. Qed.
Lemma ring_shift u b g s : ring u b g -> s <= length u -> ring u (ix (length u) b s) (fun k => g (if k + s <? length u then k + s else k + s - length u)).
Proof.
  intros [Hb R] Hs. split; [apply ix_lt; assumption|]. intros k Hk. rewrite <- R by (cases; lia). f_equal. unfold ix. cases; lia.
Qed.

Lemma emplace_back_spec x d l : rep d l -> exists d', emplace_back T x d = Some d' /\ rep d' (l ++ [x]).
Proof.
  intros Hr. unfold emplace_back. destruct (expand_spec 1 d l Hr) as (d1 & -> & R1 & C1 & I1 & _). specialize (I1 ltac:(lia)).
  destruct (rep_ring d1 l R1) as (HL & R & He); [lia|]. pose proof (proj1 R) as Hb.
  destruct (ring_construct _ _ _ (length l) x R HL) as (u & E & L & R2); [apply nth_error_out; lia|].
  fold (icap T d1) in *. rewrite He, E. eexists. split; [reflexivity|]. right. unfold icap at 1 3. cbn [buf dbegin dend]. rewrite L, app_length. cbn [length].
  split; [lia|]. split.
  - eapply ring_ext; [exact R2|]. intros k Hk. unfold upd. rewrite nth_error_app'. cases; try lia.
    + reflexivity.
    + subst k. rewrite Nat.sub_diag. reflexivity.
    + rewrite (nth_error_out l), (nth_error_out [x]) by (cbn; lia). reflexivity.
  - match goal with |- _ = ix ?c _ _ => change c with (length u) end. rewrite L. unfold ix. clear - Hb HL. cases; lia.
Qed.
Lemma emplace_front_spec x d l : rep d l -> exists d', emplace_front T x d = Some d' /\ rep d' (x :: l) /\
  (length l + 1 <= capacity T d -> icap T d' = icap T d).
Proof.
  intros Hr. unfold emplace_front. destruct (expand_spec 1 d l Hr) as (d1 & -> & R1 & C1 & I1 & S1). specialize (I1 ltac:(lia)).
  destruct (rep_ring d1 l R1) as (HL & R & He); [lia|]. pose proof (proj1 R) as Hb. fold (icap T d1) in Hb.
  set (c := icap T d1) in *.
  assert (Hn : (if dbegin d1 =? 0 then c - 1 else dbegin d1 - 1) = ix c (dbegin d1) (c - 1)) by (unfold ix; cases; lia).
  rewrite Hn. clear Hn.
  assert (Lb : length (buf d1) = c) by reflexivity.
  destruct (ring_construct _ _ _ (c - 1) x R) as (u & E & L & R2); [lia|apply nth_error_out; lia|].
  rewrite Lb in *. rewrite E. eexists. split; [reflexivity|]. split.
  - right. unfold icap. cbn [buf dbegin dend]. rewrite L. cbn [length].
    split; [lia|]. split.
    + pose proof (ring_shift _ _ _ (c - 1) R2) as R3. rewrite L in R3. specialize (R3 ltac:(lia)).
      eapply ring_ext; [exact R3|]. rewrite L. intros k Hk. unfold upd. destruct k as [|k]; cbn [nth_error]; cases; try lia; try reflexivity.
      f_equal. lia.
    + rewrite He. unfold ix. cases; lia.
  - intros X. unfold icap at 1. cbn [buf]. rewrite L. rewrite <- (S1 X). reflexivity.
Qed.
Lemma pop_front_spec d x l : rep d (x :: l) -> exists d', pop_front T d = Some d' /\ rep d' l.
Proof.
  intros Hr. unfold pop_front. assert (Hc : icap T d <> 0) by (intros Z; destruct Hr as [(_ & E & _)|(H & _)]; [discriminate|cbn in H; lia]).
  destruct (rep_ring d _ Hr Hc) as (HL & R & He). pose proof (proj1 R) as Hb. fold (icap T d) in *. cbn [length] in *.
  destruct (ring_destroy _ _ _ 0 R) as (u & E & L & R2); [fold (icap T d); lia|discriminate|]. fold (icap T d) in *. rewrite ix_0 in E by lia. rewrite E.
  assert (Hn : (if S (dbegin d) =? icap T d then 0 else S (dbegin d)) = ix (icap T d) (dbegin d) 1) by (unfold ix; cases; lia).
  rewrite Hn.
  apply shrink_spec. right. unfold icap. cbn [buf dbegin dend]. rewrite L. split; [lia|].
  split.
  - pose proof (ring_shift _ _ _ 1 R2) as R3. rewrite L in R3. specialize (R3 ltac:(lia)).
    eapply ring_ext; [exact R3|]. rewrite L. intros k Hk. unfold upd. cases; try lia.
    + rewrite Nat.add_1_r. reflexivity.
    + rewrite (nth_error_out l) by lia. reflexivity.
  - fold (icap T d); rewrite He, ix_ix by lia. reflexivity.
Qed.
Lemma pop_back_spec d l x : rep d (l ++ [x]) -> exists d', pop_back T d = Some d' /\ rep d' l.
Proof.
  intros Hr. unfold pop_back.
  assert (Hc : icap T d <> 0) by (intros Z; destruct Hr as [(_ & E & _)|(H & _)]; [destruct l; discriminate|lia]).
  destruct (rep_ring d _ Hr Hc) as (HL & R & He). pose proof (proj1 R) as Hb. fold (icap T d) in *. rewrite app_length in *. cbn [length] in *.
  assert (Hn : (if dend d =? 0 then icap T d - 1 else dend d - 1) = ix (icap T d) (dbegin d) (length l)).
  { rewrite <- ix_decr by lia. replace (S (length l)) with (length l + 1) by lia. rewrite <- He. reflexivity. }
  rewrite Hn. destruct (ring_destroy _ _ _ (length l) R) as (u & E & L & R2); [fold (icap T d); lia| |].
  { rewrite nth_error_app2 by lia. rewrite Nat.sub_diag. discriminate. }
  fold (icap T d) in *. rewrite E. apply shrink_spec. right. unfold icap. cbn [buf dbegin dend]. rewrite L. split; [lia|]. split; [|reflexivity].
  eapply ring_ext; [exact R2|]. intros k Hk. unfold upd. cases.
  - rewrite nth_error_out by lia. reflexivity.
  - rewrite nth_error_app'. cases; [reflexivity|]. rewrite (nth_error_out l), (nth_error_out [x]) by (cbn; lia). reflexivity.
Qed.
Lemma emplace_back_list_spec xs : forall d l, rep d l -> exists d', emplace_back_list T xs d = Some d' /\ rep d' (l ++ xs).
Proof.
  induction xs as [|x xs IH]; intros d l Hr; cbn [emplace_back_list].
  - exists d. rewrite app_nil_r. auto.
  - destruct (emplace_back_spec x d l Hr) as (d1 & -> & R1). destruct (IH d1 _ R1) as (d2 & E & R2). exists d2. rewrite <- app_assoc in R2. auto.
Qed.
Lemma emplace_back_until_spec x n : forall fuel d l, rep d l -> n - length l <= fuel -> length l <= n ->
  exists d', emplace_back_until T fuel n x d = Some d' /\ rep d' (l ++ repeat x (n - length l)).
Proof.
  induction fuel as [|f IH]; intros d l Hr Hf Hl; cbn [emplace_back_until]; rewrite (rep_size d l Hr).
  - replace (n - length l) with 0 by lia. replace (length l <? n) with false by (cases; lia). exists d. cbn. rewrite app_nil_r. auto.
  - destruct (Nat.ltb_spec (length l) n) as [L|G].
    + destruct (emplace_back_spec x d l Hr) as (d1 & -> & R1). destruct (IH d1 _ R1) as (d2 & E & R2).
      * rewrite app_length. cbn. lia.
      * rewrite app_length. cbn. lia.
      * exists d2. split; [exact E|]. rewrite app_length in R2. cbn [length] in R2. rewrite <- app_assoc in R2.
        replace (n - length l) with (S (n - (length l + 1))) by lia. exact R2.
    + replace (n - length l) with 0 by lia. exists d. cbn. rewrite app_nil_r. auto.
Qed.
Lemma firstn_all' {A} n (l : list A) : length l <= n -> firstn n l = l. Proof. apply firstn_all2. Qed.

Lemma nth_error_firstn_some l n k : k < n -> nth_error (firstn n l) k = nth_error l k.
Proof. intros H. rewrite nth_error_firstn'. cases; [reflexivity|lia]. Qed.
Lemma resize_spec n x d l : rep d l -> exists d', resize T n x d = Some d' /\ rep d' (firstn n l ++ repeat x (n - length l)).
Proof.
  intros Hr. unfold resize. rewrite (rep_size d l Hr). destruct (Nat.ltb_spec (length l) n) as [L|G]; [|destruct (Nat.ltb_spec n (length l)) as [L|G2]].
  - destruct (expand_spec (n - length l) d l Hr) as (d1 & -> & R1 & _).
    rewrite firstn_all' by lia. apply emplace_back_until_spec; [exact R1|lia|lia].
  - assert (Hc : icap T d <> 0) by (intros Z; destruct Hr as [(_ & E & _)|(H & _)]; [subst l; cbn in L; lia|lia]).
    destruct (rep_ring d _ Hr Hc) as (HL & R & He). pose proof (proj1 R) as Hb. fold (icap T d) in *.
    rewrite mod_ix by lia. rewrite He.
    destruct (ring_destruct_range _ _ _ n (length l) R) as (u & E & Lu & R2); [fold (icap T d); lia| |].
    { intros k Hk. apply nth_error_Some. lia. }
    fold (icap T d) in *. rewrite E. replace (n - length l) with 0 by lia. cbn [repeat]. rewrite app_nil_r.
    apply shrink_spec. right. unfold icap. cbn [buf dbegin dend]. rewrite Lu, firstn_length, Nat.min_l by lia. split; [lia|]. split; [|reflexivity].
    eapply ring_ext; [exact R2|]. intros k Hk. cbn beta. rewrite nth_error_firstn'. cases; cbn [andb]; try reflexivity; try lia.
    apply nth_error_out. lia.
  - replace (n - length l) with 0 by lia. rewrite firstn_all' by lia. cbn. rewrite app_nil_r. eauto.
Qed.
Lemma clear_retain_spec d l : rep d l -> exists d', clear_retain T d = Some d' /\ rep d' [] /\ icap T d' = icap T d /\ release T (buf d') = Some tt.
Proof.
  intros Hr. unfold clear_retain. destruct Hr as [(E & -> & H)|(H & R & He)].
  - rewrite H, E. unfold destruct_range. rewrite Nat.eqb_refl. eexists. split; [reflexivity|]. split; [left; auto|]. split; [unfold icap; rewrite E; reflexivity|reflexivity].
  - pose proof (proj1 R) as Hb.
    destruct (ring_destruct_range _ _ _ 0 (length l) R) as (u & E & Lu & R2); [fold (icap T d); lia| |].
    { intros k Hk. apply nth_error_Some. lia. }
    rewrite ix_0 in E by exact Hb. fold (icap T d) in E. rewrite <- He in E. rewrite E. eexists. split; [reflexivity|].
    assert (RR : release T u = Some tt).
    { eapply ring_release; [exact R2|]. intros k Hk. cbn beta. cases; cbn [andb]; try reflexivity; try lia. apply nth_error_out. lia. }
    split; [|split; [exact Lu|exact RR]]. right. unfold icap. cbn [buf dbegin dend length]. rewrite Lu. split; [fold (icap T d); lia|].
    split; [|rewrite ix_0; [reflexivity|fold (icap T d) in *; lia]].
    split; [lia|]. intros k Hk. destruct R2 as [Hb2 R2].
    assert (Hx : ix (length u) 0 k < length u) by (apply ix_lt; lia).
    destruct (ix_surj (length u) (dbegin d) _ Hb2 Hx) as (j & Hj & <-). rewrite R2 by exact Hj. f_equal.
    transitivity (@None T); [|destruct k; reflexivity]. cases; cbn [andb]; try reflexivity; try lia. apply nth_error_out. lia.
Qed.
Lemma reserve_spec n d l : rep d l -> exists d', reserve T n d = Some d' /\ rep d' l /\ n <= capacity T d'.
Proof.
  intros Hr. unfold reserve. destruct (Nat.ltb_spec (capacity T d) n) as [L|G]; [|eauto].
  pose proof (rep_capacity d l Hr). destruct (set_capacity_spec n d l Hr) as (d' & E & R & C & _); [lia|].
  exists d'. split; [exact E|]. split; [exact R|]. unfold capacity. rewrite C. cases; lia.
Qed.
Lemma rep_release_empty d : rep d [] -> release T (buf d) = Some tt.
Proof.
  intros [(E & _)|(H & R & _)]; [rewrite E; reflexivity|]. eapply ring_release; [exact R|]. intros [|k] _; reflexivity.
Qed.
Lemma shrink_to_fit_spec d l : rep d l -> exists d', shrink_to_fit T d = Some d' /\ rep d' l /\ capacity T d' = length l.
Proof.
  intros Hr. unfold shrink_to_fit. rewrite (rep_empty d l Hr). destruct (Nat.eqb_spec (length l) 0) as [Z|N].
  - assert (l = []) by (destruct l; [reflexivity|discriminate]). subst l. destruct (Nat.eqb_spec (icap T d) 0) as [Y|M].
    + exists d. split; [reflexivity|]. split; [exact Hr|]. unfold capacity. rewrite Y. reflexivity.
    + rewrite (rep_release_empty d Hr). eexists. split; [reflexivity|]. split; [|reflexivity]. left. cbn. split; [reflexivity|]. split; [reflexivity|].
      pose proof (rep_empty d _ Hr) as X. unfold is_empty in X. cbn in X. apply Nat.eqb_eq. exact X.
  - rewrite (rep_size d l Hr). destruct (set_capacity_spec (length l) d l Hr) as (d' & E & R & C & _); [lia|].
    exists d'. split; [exact E|]. split; [exact R|]. unfold capacity. rewrite C. cases; lia.
Qed.
Lemma clear_spec d l : rep d l -> exists d', clear T d = Some d' /\ rep d' [] /\ capacity T d' = 0.
Proof.
  intros Hr. unfold clear. destruct (clear_retain_spec d l Hr) as (d1 & E & R & _ & RR). rewrite E, RR. eexists. split; [reflexivity|].
  split; [|reflexivity]. left. cbn. split; [reflexivity|]. split; [reflexivity|].
  pose proof (rep_empty d1 _ R) as X. unfold is_empty in X. cbn in X. apply Nat.eqb_eq. exact X.
Qed.
Lemma assign_spec xs d l : rep d l -> exists d', assign T xs d = Some d' /\ rep d' xs.
Proof.
  intros Hr. unfold assign. destruct (clear_retain_spec d l Hr) as (d1 & -> & R & _). exact (emplace_back_list_spec xs d1 [] R).
Qed.
Lemma assign_n_spec n x d l : rep d l -> exists d', assign_n T n x d = Some d' /\ rep d' (repeat x n).
Proof.
  intros Hr. unfold assign_n. destruct (clear_retain_spec d l Hr) as (d1 & -> & R & _). destruct (reserve_spec n d1 _ R) as (d2 & -> & R2 & _).
  exact (emplace_back_list_spec (repeat x n) d2 [] R2).
Qed.
Lemma assign_init_spec xs d l : rep d l -> exists d', assign_init T xs d = Some d' /\ rep d' xs.
Proof.
  intros Hr. unfold assign_init. destruct (reserve_spec (length xs) d l Hr) as (d1 & -> & R & _). exact (assign_spec xs d1 l R).
Qed.
End Proof.
