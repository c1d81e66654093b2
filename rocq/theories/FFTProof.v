(** Index permutations and butterfly networks on vectors. *)
From Coq Require Import ZArith List Bool Lia Arith Permutation.
From Verif Require Import BigIntModel BitsModel BitsSpec BitsProof ParallelizeModel ParallelizeProof SemigroupProof PolyModel FFTModel.
Import ListNotations.
Open Scope nat_scope.

(** ** Bit reversal of naturals *)
Fixpoint brev (k x : nat) : nat :=
  match k with O => 0 | S m => (x mod 2) * 2 ^ m + brev m (x / 2) end.
Lemma pow2_nz k : 2 ^ k <> 0. Proof. apply Nat.pow_nonzero. lia. Qed.
Lemma pow2_1 k : 1 <= 2 ^ k. Proof. pose proof (pow2_nz k). lia. Qed.
Lemma pow2_Z k : (Z.of_nat (2 ^ k) = 2 ^ Z.of_nat k)%Z.
Proof. rewrite Nat2Z.inj_pow. reflexivity. Qed.
Lemma brev_lt : forall k x, brev k x < 2 ^ k.
Proof.
  induction k; intros x; cbn [brev Nat.pow]; [lia|].
  specialize (IHk (x / 2)). pose proof (Nat.mod_upper_bound x 2 ltac:(lia)).
  assert (x mod 2 = 0 \/ x mod 2 = 1) as [->| ->] by lia; lia.
Qed.
Lemma brev_Z : forall k x, rev_bits k (Z.of_nat x) = Z.of_nat (brev k x).
Proof.
  induction k; intros x; cbn [rev_bits brev]; [reflexivity|].
  rewrite Nat2Z.inj_add, Nat2Z.inj_mul, pow2_Z, Nat2Z.inj_mod, <- IHk, Nat2Z.inj_div. reflexivity.
Qed.
Lemma brev_invol k x : x < 2 ^ k -> brev k (brev k x) = x.
Proof.
  intros H. apply Nat2Z.inj. rewrite <- !brev_Z. apply rev_bits_involutive.
  split; [lia|]. rewrite <- pow2_Z. lia.
Qed.
Lemma brev_inj k x y : x < 2 ^ k -> y < 2 ^ k -> brev k x = brev k y -> x = y.
Proof. intros Hx Hy H. rewrite <- (brev_invol k x), <- (brev_invol k y) by auto. congruence. Qed.
Lemma brev_0 : forall k, brev k 0 = 0.
Proof. induction k; cbn [brev]; [reflexivity|]. change (0 mod 2) with 0. change (0 / 2) with 0. lia. Qed.
Lemma brev_S_even k q : brev (S k) (2 * q) = brev k q.
Proof. cbn [brev]. rewrite (Nat.mul_comm 2 q), Nat.mod_mul, Nat.div_mul by lia. lia. Qed.
Lemma brev_S_odd k q : brev (S k) (2 * q + 1) = 2 ^ k + brev k q.
Proof.
  cbn [brev]. replace (2 * q + 1) with (1 + q * 2) by lia. rewrite Nat.mod_add, Nat.div_add by lia.
  change (1 mod 2) with 1. change (1 / 2) with 0. rewrite Nat.add_0_l. lia.
Qed.
Lemma half_split q j r : (q * 2 ^ S j + r) / 2 = q * 2 ^ j + r / 2 /\ (q * 2 ^ S j + r) mod 2 = r mod 2.
Proof.
  replace (q * 2 ^ S j + r) with (r + q * 2 ^ j * 2) by (cbn [Nat.pow]; lia).
  rewrite Nat.div_add, Nat.mod_add by lia. lia.
Qed.
(** Reversing a word made of [q] above [j] low bits [r]. *)
Lemma brev_split : forall j k q r, r < 2 ^ j -> brev (j + k) (q * 2 ^ j + r) = brev j r * 2 ^ k + brev k q.
Proof.
  induction j; intros k q r Hr.
  - cbn in Hr. replace r with 0 by lia. cbn [Nat.pow brev plus]. rewrite Nat.mul_1_r, Nat.add_0_r. lia.
  - change (S j + k) with (S (j + k)). cbn [brev]. destruct (half_split q j r) as [-> ->].
    rewrite IHj; [|cbn [Nat.pow] in Hr; apply Nat.div_lt_upper_bound; lia]. rewrite Nat.pow_add_r. ring.
Qed.
Lemma reverse_bits_len_nat k x : 0 < k <= 64 -> x < 2 ^ k ->
  reverse_bits_len (Z.of_nat x) (Z.of_nat k) = Some (Z.of_nat (brev k x)).
Proof.
  intros Hk Hx. rewrite reverse_bits_len_spec; [|lia|]. { rewrite brev_Z. reflexivity. }
  split; [lia|]. rewrite <- pow2_Z. lia.
Qed.

(** ** Vectors given by a function of the index *)
Notation tab f n := (map f (seq 0 n)).
Lemma tab_nth {A} (f : nat -> A) n i : i < n -> nth_error (tab f n) i = Some (f i).
Proof.
  intros H. rewrite nth_error_map. rewrite (nth_error_nth' _ 0) by (rewrite seq_length; auto).
  rewrite seq_nth by auto. reflexivity.
Qed.
Lemma tab_length {A} (f : nat -> A) n : length (tab f n) = n.
Proof. rewrite map_length, seq_length. reflexivity. Qed.
Lemma tab_ext {A} (f g : nat -> A) n : (forall i, i < n -> f i = g i) -> tab f n = tab g n.
Proof. intros H. apply map_ext_in. intros i Hi. apply in_seq in Hi. apply H. lia. Qed.
Lemma list_tab {A} (d : A) l : l = tab (fun i => nth i l d) (length l).
Proof.
  apply nth_error_ext'. { intros i. destruct (Nat.lt_ge_cases i (length l)) as [H|H].
  - rewrite tab_nth by auto. apply nth_error_nth'. auto.
  - rewrite (proj2 (nth_error_None l i)) by lia. symmetry. apply nth_error_None. rewrite tab_length. lia. }
Qed.
Lemma set_nth_tab {A} (f : nat -> A) n i x : i < n ->
  set_nth i x (tab f n) = tab (fun j => if Nat.eqb j i then x else f j) n.
Proof.
  intros H. apply nth_error_ext'. intros j. destruct (Nat.lt_ge_cases j n) as [Hj|Hj].
  - rewrite (tab_nth _ n j) by auto. destruct (Nat.eqb_spec j i) as [->|E].
    + apply set_nth_same with (y := f i). apply tab_nth. auto.
    + rewrite set_nth_other by auto. apply tab_nth. auto.
  - rewrite (proj2 (nth_error_None _ j)) by (rewrite set_nth_length, tab_length; lia).
    symmetry. apply nth_error_None. rewrite tab_length. lia.
Qed.

(** ** Running butterflies on disjoint positions *)
Definition touched {R} (op : nat * nat * option R) : list nat := [fst (fst op); snd (fst op)].
Lemma bfly_run {A R} (fn : A -> A -> R -> A * A) n : forall (ops : list (nat * nat * option R)) (f g : nat -> A),
  NoDup (flat_map touched ops) ->
  (forall lo hi r, In (lo, hi, r) ops -> lo < n /\ hi < n /\ exists w, r = Some w /\ fn (f lo) (f hi) w = (g lo, g hi)) ->
  (forall x, x < n -> ~ In x (flat_map touched ops) -> g x = f x) ->
  ofold (bfly fn) ops (tab f n) = Some (tab g n).
Proof.
  induction ops as [|[[lo hi] r] ops IH]; intros f g HN Hops Hrest.
  - cbn [ofold]. f_equal. apply tab_ext. intros i Hi. symmetry. apply Hrest; auto.
  - destruct (Hops lo hi r (or_introl eq_refl)) as (Hlo & Hhi & w & -> & E).
    cbn [flat_map touched app fst snd] in HN. inversion HN as [|? ? N1 N2]; subst. inversion N2 as [|? ? N3 N4]; subst.
    assert (lo <> hi) by (intros ->; apply N1; left; auto).
    assert (~ In lo (flat_map touched ops)) by (intros H1; apply N1; right; auto).
    cbn [ofold bfly]. rewrite !tab_nth by auto. rewrite E. cbv zeta. cbn [fst snd].
    rewrite set_nth_tab by auto. rewrite set_nth_tab by auto. apply IH; [auto| |].
    + intros lo' hi' r' Hin. destruct (Hops lo' hi' r' (or_intror Hin)) as (H1 & H2 & w' & -> & E').
      split; [auto|]. split; [auto|]. exists w'. split; [auto|].
      assert (I1 : In lo' (flat_map touched ops)) by (apply in_flat_map; exists (lo', hi', Some w'); split; [auto|left; auto]).
      assert (I2 : In hi' (flat_map touched ops)) by (apply in_flat_map; exists (lo', hi', Some w'); split; [auto|right; left; auto]).
      assert (D : forall x, In x (flat_map touched ops) -> (if x =? hi then g hi else if x =? lo then g lo else f x) = f x).
      { intros x Hx. destruct (Nat.eqb_spec x hi) as [->|]; [contradiction|]. destruct (Nat.eqb_spec x lo) as [->|]; [contradiction|reflexivity]. }
      rewrite (D lo' I1), (D hi' I2). exact E'.
    + intros x Hx Hn. destruct (Nat.eqb_spec x hi) as [->|]; [reflexivity|]. destruct (Nat.eqb_spec x lo) as [->|]; [reflexivity|].
      apply Hrest; auto. cbn [flat_map touched app fst snd]. intros [H1|[H1|H1]]; [congruence|congruence|contradiction].
Qed.

Definition fair (sched : scheduler) : Prop := forall A t (l : list A), Permutation l (sched A t l).
Lemma bfly_sched {A R} (fn : A -> A -> R -> A * A) n sched t (ops : list (nat * nat * option R)) (f g : nat -> A) :
  fair sched ->
  NoDup (flat_map touched ops) ->
  (forall lo hi r, In (lo, hi, r) ops -> lo < n /\ hi < n /\ exists w, r = Some w /\ fn (f lo) (f hi) w = (g lo, g hi)) ->
  (forall x, x < n -> ~ In x (flat_map touched ops) -> g x = f x) ->
  ofold (bfly fn) (sched _ t ops) (tab f n) = Some (tab g n).
Proof.
  intros HF HN Hops Hrest. pose proof (HF _ t ops) as P.
  assert (PT : Permutation (flat_map touched ops) (flat_map touched (sched _ t ops))) by (apply Permutation_flat_map; auto).
  apply bfly_run.
  - eapply Permutation_NoDup; eauto.
  - intros lo hi r Hin. apply Hops. eapply Permutation_in; [|exact Hin]. symmetry. auto.
  - intros x Hx Hn. apply Hrest; auto. intros Hi. apply Hn. eapply Permutation_in; eauto.
Qed.

(** A full layer: [B] blocks of [2 * g] positions. *)
Lemma flat_map_pair {A} (f h : A -> nat) (l : list A) :
  Permutation (flat_map (fun j => [f j; h j]) l) (map f l ++ map h l).
Proof.
  induction l as [|x l IH]; cbn [flat_map map app]; [auto|].
  apply perm_skip. rewrite IH. apply Permutation_middle.
Qed.
Lemma map_add_seq c n : map (fun j => c + j) (seq 0 n) = seq c n.
Proof.
  revert c. induction n; intros c; cbn [seq map]; [reflexivity|]. f_equal; [lia|].
  rewrite <- seq_shift, map_map, <- (IHn (S c)). apply map_ext. intros. lia.
Qed.
Lemma flat_map_map {A B C} (f : A -> B) (h : B -> list C) l : flat_map h (map f l) = flat_map (fun x => h (f x)) l.
Proof. induction l; cbn; [reflexivity|]. congruence. Qed.
Lemma blocks_seq c : forall B s, flat_map (fun b => seq (b * c) c) (seq s B) = seq (s * c) (B * c).
Proof.
  induction B; intros s; cbn [seq flat_map]; [reflexivity|]. rewrite IHB.
  replace (S B * c) with (c + B * c) by lia. rewrite seq_app. f_equal. f_equal. lia.
Qed.
Lemma layer_touched {R} B g (r : nat -> nat -> option R) :
  Permutation (flat_map touched (flat_map (fun b => map (fun j => (b * (2 * g) + j, b * (2 * g) + j + g, r b j)) (seq 0 g)) (seq 0 B)))
              (seq 0 (B * (2 * g))).
Proof.
  pose proof (blocks_seq (2 * g) B 0) as E. rewrite Nat.mul_0_l in E. rewrite <- E. clear E.
  induction (seq 0 B) as [|b l IH]; cbn [flat_map]; [auto|].
  rewrite flat_map_app. apply Permutation_app; [|exact IH].
  rewrite flat_map_map. unfold touched at 1. cbn [fst snd]. rewrite flat_map_pair.
  rewrite map_add_seq. rewrite (map_ext _ (fun j => (b * (2 * g) + g) + j)) by (intros; lia). rewrite map_add_seq.
  rewrite <- seq_app. replace (g + g) with (2 * g) by lia. auto.
Qed.
Lemma layer_run {A R} (fn : A -> A -> R -> A * A) sched t B g (r : nat -> nat -> option R) (f h : nat -> A) :
  fair sched ->
  (forall b j, b < B -> j < g -> exists w, r b j = Some w /\
     fn (f (b * (2 * g) + j)) (f (b * (2 * g) + j + g)) w = (h (b * (2 * g) + j), h (b * (2 * g) + j + g))) ->
  ofold (bfly fn) (sched _ t (flat_map (fun b => map (fun j => (b * (2 * g) + j, b * (2 * g) + j + g, r b j)) (seq 0 g)) (seq 0 B)))
        (tab f (B * (2 * g))) = Some (tab h (B * (2 * g))).
Proof.
  intros HF H. apply bfly_sched; auto.
  - eapply Permutation_NoDup; [symmetry; apply layer_touched|]. apply seq_NoDup.
  - intros lo hi w Hin. apply in_flat_map in Hin. destruct Hin as (b & Hb & Hin). apply in_map_iff in Hin.
    destruct Hin as (j & Hj & Hin). inversion Hj; subst. apply in_seq in Hb. apply in_seq in Hin.
    assert (b * (2 * g) + 2 * g <= B * (2 * g)) by nia. split; [lia|]. split; [lia|]. apply H; lia.
  - intros x Hx Hn. exfalso. apply Hn. eapply Permutation_in; [symmetry; apply layer_touched|]. apply in_seq. lia.
Qed.

(** ** Bit-reversal swaps *)
Definition swap_fn {A} (x y : A) (_ : unit) : A * A := (y, x).
Lemma swap_as_bfly {A} k (idxs : list nat) : 0 < k <= 64 -> (forall i, In i idxs -> i < 2 ^ k) -> forall l : list A,
  ofold (swap_step (Z.of_nat k)) idxs l =
  ofold (bfly swap_fn) (map (fun i => (i, brev k i, Some tt)) (filter (fun i => i <? brev k i) idxs)) l.
Proof.
  intros Hk. induction idxs as [|i idxs IH]; intros Hi l; [reflexivity|]. cbn [ofold filter].
  unfold swap_step at 1. rewrite reverse_bits_len_nat by (auto; apply Hi; left; auto). cbv zeta. rewrite Nat2Z.id.
  destruct (i <? brev k i).
  - cbn [map ofold bfly]. destruct (nth_error l i); [|reflexivity]. destruct (nth_error l (brev k i)); [|reflexivity].
    cbv zeta. unfold swap_fn at 1 2. cbn [fst snd]. apply IH. intros; apply Hi; right; auto.
  - apply IH. intros; apply Hi; right; auto.
Qed.
Lemma swap_run {A} sched t k m (f : nat -> A) : fair sched -> 0 < k <= 64 -> m <= 2 ^ k ->
  (forall i, i < 2 ^ k -> m <= i -> m <= brev k i -> f i = f (brev k i)) ->
  ofold (swap_step (Z.of_nat k)) (sched _ t (seq 1 (m - 1))) (tab f (2 ^ k)) = Some (tab (fun i => f (brev k i)) (2 ^ k)).
Proof.
  intros HF Hk Hm Hout. pose proof (HF _ t (seq 1 (m - 1))) as P.
  set (is := sched nat t (seq 1 (m - 1))) in *.
  assert (Hin : forall i, In i is <-> 1 <= i < m).
  { intros i. split; intros H.
    - apply (Permutation_in _ (Permutation_sym P)) in H. apply in_seq in H. lia.
    - apply (Permutation_in _ P). apply in_seq. lia. }
  assert (HN : NoDup is) by (eapply Permutation_NoDup; [exact P|apply seq_NoDup]).
  rewrite swap_as_bfly; auto; [|intros i Hi; apply Hin in Hi; lia].
  assert (T : forall x, In x (flat_map touched (map (fun i => (i, brev k i, Some tt)) (filter (fun i => i <? brev k i) is))) <->
                exists i, In i is /\ i < brev k i /\ (x = i \/ x = brev k i)).
  { intros x. rewrite flat_map_map. rewrite in_flat_map. split.
    - intros (i & H1 & H2). apply filter_In in H1. destruct H1 as [H1 H3]. apply Nat.ltb_lt in H3. exists i. split; [auto|]. split; [auto|].
      cbn in H2. intuition.
    - intros (i & H1 & H2 & H3). exists i. split; [apply filter_In; split; [auto|apply Nat.ltb_lt; auto]|]. cbn. intuition. }
  apply bfly_run.
  - rewrite flat_map_map. unfold touched. cbn [fst snd].
    assert (HL : forall i, In i (filter (fun i => i <? brev k i) is) -> i < 2 ^ k /\ i < brev k i).
    { intros i Hi. apply filter_In in Hi. destruct Hi as [Hi Hl]. apply Nat.ltb_lt in Hl. apply Hin in Hi. lia. }
    assert (HNf : NoDup (filter (fun i => i <? brev k i) is)) by (apply NoDup_filter; auto).
    revert HL HNf. generalize (filter (fun i => i <? brev k i) is) as js. clear T.
    induction js as [|j js IH]; intros HL HNj; cbn [flat_map app]; [constructor|].
    inversion HNj as [|? ? N1 N2]; subst. destruct (HL j (or_introl eq_refl)) as [Hj1 Hj2].
    assert (IH' := IH (fun i Hi => HL i (or_intror Hi)) N2).
    constructor; [|constructor].
    + intros [H|H]; [lia|]. apply in_flat_map in H. destruct H as (i & Hi & [H|[H|[]]]); [subst; contradiction|].
      destruct (HL i (or_intror Hi)) as [Hi1 Hi2]. assert (brev k j = i) by (rewrite <- H; apply brev_invol; auto). lia.
    + intros H. apply in_flat_map in H. destruct H as (i & Hi & [H|[H|[]]]).
      * destruct (HL i (or_intror Hi)) as [Hi1 Hi2]. assert (brev k i = j) by (rewrite H; apply brev_invol; auto). lia.
      * destruct (HL i (or_intror Hi)) as [Hi1 Hi2]. assert (i = j) by (eapply brev_inj; eauto). subst. contradiction.
    + exact IH'.
  - intros lo hi r H. apply in_map_iff in H. destruct H as (i & E & Hi). inversion E; subst. clear E.
    apply filter_In in Hi. destruct Hi as [Hi Hl]. apply Hin in Hi.
    split; [lia|]. split; [apply brev_lt|]. exists tt. split; [reflexivity|]. unfold swap_fn.
    rewrite brev_invol by lia. reflexivity.
  - intros x Hx Hn. rewrite T in Hn.
    pose proof (brev_lt k x) as Hb. pose proof (brev_invol k x Hx) as Hv.
    assert (Hz : x = 0 -> brev k x = 0) by (intros ->; apply brev_0).
    destruct (Nat.lt_trichotomy x (brev k x)) as [Hl|[He|Hg]].
    + destruct (Nat.lt_ge_cases x m) as [H1|H1].
      * exfalso. apply Hn. exists x. split; [apply Hin; split; [|auto]|auto].
        destruct x; [rewrite brev_0 in Hl; lia|lia].
      * symmetry. apply Hout; lia.
    + f_equal. lia.
    + destruct (Nat.lt_ge_cases (brev k x) m) as [H1|H1].
      * exfalso. apply Hn. exists (brev k x). rewrite Hv. split; [apply Hin; split; [|auto]|auto].
        destruct (brev k x) eqn:E; [rewrite brev_0 in Hv; lia|lia].
      * symmetry. apply Hout; lia.
Qed.
