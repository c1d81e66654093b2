(** Insertion, erasure, observers and whole histories of circular_deque. *)
From Coq Require Import List Arith Lia Bool.
From Verif Require Import ParallelizeModel ParallelizeProof DequeModel DequeSpec DequeProof.
Import ListNotations.

Section Proof2.
Variable T : Type.
Implicit Types (g : nat -> option T) (d : deque T) (l : list T) (b : nat).
Local Notation cells := (cells T).
Local Notation ring := (ring T).
Local Notation rep := (rep T).

(** [l] with a hole of [n] cells at [p]. *)
Definition holed l p n : nat -> option T := fun k =>
  if k <? p then nth_error l k else if k <? p + n then None else nth_error l (k - n).

Lemma shift_right_spec n p l b : forall s fuel (u : cells), ring u b (holed l s n) -> n <> 0 -> p <= s <= length l -> length l + n < length u ->
  s - p <= fuel -> exists u', shift_right T fuel (ix (length u) b s) (ix (length u) b (s + n)) (ix (length u) b p) u = Some u' /\
    length u' = length u /\ ring u' b (holed l p n).
Proof.
  intros s. remember (s - p) as m eqn:Em. revert s Em. induction m as [|m IH]; intros s Em fuel u R Hn Hs HL Hf; pose proof (proj1 R) as Hb.
  - assert (s = p) by lia. subst s. exists u. split; [|auto]. destruct fuel; cbn [shift_right]; rewrite Nat.eqb_refl; reflexivity.
  - destruct fuel as [|f]; [lia|]. cbn [shift_right]. destruct (Nat.eqb_spec (ix (length u) b s) (ix (length u) b p)) as [E|_]; [apply ix_inj in E; lia|].
    destruct s as [|s]; [lia|]. cbn [Nat.add]. rewrite !ix_decr by lia.
    destruct (ring_move1 T u b _ s (s + n) R) as (u1 & E1 & L1 & R1); try lia.
    { unfold holed. cases; try lia. apply nth_error_Some. lia. }
    { unfold holed. cases; try lia. reflexivity. }
    rewrite E1. rewrite <- L1. apply IH; try lia. eapply ring_ext; [exact R1|]. intros k Hk. unfold upd, holed. cases; try lia; try reflexivity.
    subst k. f_equal. lia.
Qed.
Lemma make_room_spec n p d l : rep d l -> n <> 0 -> p <= length l -> (icap T d = 0 -> p = 0) ->
  let pos := iter_at T d p in
  exists d', make_room_for T n pos d = Some (d', ix (icap T d') (dbegin d') p, ix (icap T d') (dbegin d') (p + n)) /\
    ring (buf d') (dbegin d') (holed l p n) /\ length l + n < icap T d' /\ dend d' = ix (icap T d') (dbegin d') (length l + n).
Proof.
  intros Hr Hn Hp Hp0. cbv zeta. unfold make_room_for. replace (n =? 0) with false by (cases; lia).
  assert (Ho : offset_from_begin T d (iter_at T d p) = p).
  { unfold iter_at, offset_from_begin. destruct (Nat.eqb_spec p 0) as [->|Np]; [cases; lia|].
    destruct (Nat.eq_dec (icap T d) 0) as [Z|NZ]; [specialize (Hp0 Z); lia|].
    destruct (rep_ring T d l Hr NZ) as (HL & [Hb _] & _). fold (icap T d) in Hb. rewrite Nat.add_comm, mod_ix by lia. unfold ix. cases; lia. }
  rewrite Ho. destruct (expand_spec T n d l Hr) as (d1 & -> & R1 & C1 & I1 & _). specialize (I1 Hn).
  destruct (rep_ring T d1 l R1) as (HL & R & He); [lia|]. pose proof (proj1 R) as Hb. fold (icap T d1) in *.
  rewrite (mod_ix _ (dbegin d1) p) by lia. rewrite !ix_mod by lia. rewrite He, ix_mod by lia.
  destruct (shift_right_spec n p l (dbegin d1) (length l) (icap T d1) (buf d1)) as (u & E & L & R2); fold (icap T d1) in *; try lia.
  { eapply ring_ext; [exact R|]. intros k Hk. unfold holed. cases; try reflexivity; rewrite !nth_error_out by lia; reflexivity. }
  rewrite E. exists (Deque u (dbegin d1) (ix (icap T d1) (dbegin d1) (length l + n))). split; [|split; [exact R2|]].
  - assert (X : icap T (Deque u (dbegin d1) (ix (icap T d1) (dbegin d1) (length l + n))) = icap T d1) by exact L. rewrite X. reflexivity.
  - unfold icap. cbn [buf dend dbegin]. rewrite L. fold (icap T d1). split; [lia|reflexivity].
Qed.
Definition filled g k (xs : list T) : nat -> option T := fun j =>
  if (k <=? j) && (j <? k + length xs) then nth_error xs (j - k) else g j.
Lemma fill_spec xs : forall d g k, ring (buf d) (dbegin d) g -> k + length xs < icap T d -> (forall j, k <= j < k + length xs -> g j = None) ->
  exists u, fill T d (ix (icap T d) (dbegin d) k) (ix (icap T d) (dbegin d) (k + length xs)) xs = Some (Deque u (dbegin d) (dend d)) /\
    length u = icap T d /\ ring u (dbegin d) (filled g k xs).
Proof.
  induction xs as [|x xs IH]; intros d g k R Hk Hg; pose proof (proj1 R) as Hb; fold (icap T d) in Hb; cbn [fill length].
  - rewrite Nat.add_0_r, Nat.ltb_irrefl. exists (buf d). split; [destruct d; reflexivity|]. split; [reflexivity|].
    eapply ring_ext; [exact R|]. intros j Hj. unfold filled. cbn [length]. cases; cbn [andb]; try reflexivity; lia.
  - cbn [length] in *.
    assert (Hoff : forall j, j < icap T d -> offset_from_begin T d (ix (icap T d) (dbegin d) j) = j) by (intros j Hj; unfold offset_from_begin, ix; cases; lia).
    rewrite !Hoff by lia. replace (k <? k + S (length xs)) with true by (cases; lia).
    destruct (ring_construct T _ _ _ k x R) as (u & E & L & R1); [fold (icap T d); lia|apply Hg; lia|].
    fold (icap T d) in *. rewrite E, ix_incr by lia.
    destruct (IH (Deque u (dbegin d) (dend d)) (upd T g k (Some x)) (S k) R1) as (u2 & E2 & L2 & R2).
    + unfold icap. cbn [buf]. rewrite L. lia.
    + intros j Hj. unfold upd. cases; try lia. apply Hg. lia.
    + unfold icap in E2, L2. cbn [buf dbegin dend] in *. rewrite L in *. fold (icap T d) in *.
      replace (k + S (length xs)) with (S k + length xs) by lia. exists u2. split; [exact E2|]. split; [congruence|].
      eapply ring_ext; [exact R2|]. intros j Hj. unfold filled, upd. cbn [length]. destruct (Nat.eqb_spec j k) as [->|N].
      * rewrite Nat.sub_diag. cases; cbn [andb]; try lia; reflexivity.
      * cases; cbn [andb]; try lia; try reflexivity. replace (j - k) with (S (j - S k)) by lia. reflexivity.
Qed.
Lemma filled_holed l p xs k : p <= length l -> filled (holed l p (length xs)) p xs k = nth_error (firstn p l ++ xs ++ skipn p l) k.
Proof.
  intros Hp. unfold filled, holed. rewrite !nth_error_app', nth_error_skipn', nth_error_firstn', !firstn_length, Nat.min_l by exact Hp.
  cases; cbn [andb]; try lia; try reflexivity. f_equal. lia.
Qed.
Lemma make_room_fill p xs d l : rep d l -> xs <> [] -> p <= length l -> (icap T d = 0 -> p = 0) ->
  exists d', match make_room_for T (length xs) (iter_at T d p) d with Some (d1, ib, ie) => fill T d1 ib ie xs | None => None end = Some d' /\
    rep d' (firstn p l ++ xs ++ skipn p l) /\ iter_at T d' p = ix (icap T d') (dbegin d') p.
Proof.
  intros Hr Hx Hp Hp0. assert (length xs <> 0) by (destruct xs; [congruence|discriminate]).
  destruct (make_room_spec (length xs) p d l Hr) as (d1 & -> & R & HL & He); try assumption.
  destruct (fill_spec xs d1 _ p R) as (u & E & L & R2); [lia| |].
  { intros j Hj. unfold holed. cases; try lia. reflexivity. }
  rewrite E. eexists. split; [reflexivity|]. pose proof (proj1 R) as Hb. fold (icap T d1) in Hb. split.
  - right. unfold icap. cbn [buf dbegin dend]. rewrite L, !app_length, firstn_length, skipn_length, Nat.min_l by lia.
    replace (p + (length xs + (length l - p))) with (length l + length xs) by lia. split; [lia|]. split; [|exact He].
    eapply ring_ext; [exact R2|]. intros k Hk. cbn beta. apply filled_holed. exact Hp.
  - unfold icap, iter_at. cbn [buf dbegin]. unfold icap. cbn [buf]. rewrite L. cases; [subst p; rewrite ix_0; auto|]. rewrite Nat.add_comm, mod_ix by lia. reflexivity.
Qed.
Lemma iter_begin d l k : rep d l -> k <= length l -> (iter_at T d k =? dbegin d) = (k =? 0).
Proof.
  intros Hr Hk. unfold iter_at. destruct (Nat.eqb_spec k 0) as [->|N]; [apply Nat.eqb_refl|].
  destruct Hr as [(E & -> & H)|(H & [Hb _] & He)]; [cbn in Hk; lia|]. fold (icap T d) in Hb. rewrite Nat.add_comm, mod_ix by lia. unfold ix. cases; lia.
Qed.
Lemma iter_ix d l k : rep d l -> k <= length l -> icap T d <> 0 -> iter_at T d k = ix (icap T d) (dbegin d) k.
Proof.
  intros Hr Hk HN. destruct (rep_ring T d l Hr HN) as (HL & [Hb _] & _). fold (icap T d) in Hb.
  unfold iter_at. destruct (Nat.eqb_spec k 0) as [->|N]; [rewrite ix_0; auto|]. rewrite Nat.add_comm, mod_ix by lia. reflexivity.
Qed.
Lemma rep_icap0 d l k : rep d l -> k <= length l -> icap T d = 0 -> k = 0.
Proof. intros [(E & -> & _)|(H & _)] Hk HZ; [cbn in Hk; lia|lia]. Qed.
Lemma push_front_n_spec x n : forall d l, rep d l -> exists d', push_front_n T n x d = Some d' /\ rep d' (repeat x n ++ l).
Proof.
  induction n as [|n IH]; intros d l Hr; cbn [push_front_n]; [eauto|].
  destruct (emplace_front_spec T x d l Hr) as (d1 & -> & R1 & _). destruct (IH d1 _ R1) as (d2 & E & R2). exists d2. split; [exact E|].
  assert (X : repeat x n ++ x :: l = repeat x (S n) ++ l).
  { replace (x :: l) with ([x] ++ l) by reflexivity. rewrite app_assoc. f_equal. change [x] with (repeat x 1). rewrite <- repeat_app. f_equal. lia. }
  rewrite <- X. exact R2.
Qed.
Lemma insert_n_spec k n x d l : rep d l -> k <= length l ->
  exists d', insert_n T (iter_at T d k) n x d = Some d' /\ rep d' (firstn k l ++ repeat x n ++ skipn k l).
Proof.
  intros Hr Hk. unfold insert_n. rewrite (iter_begin d l k Hr Hk). destruct (Nat.eqb_spec k 0) as [->|N].
  - cbn [firstn skipn app]. destruct (expand_spec T n d l Hr) as (d1 & -> & R1 & _). apply push_front_n_spec. exact R1.
  - destruct n as [|n].
    + unfold make_room_for. cbn [Nat.eqb repeat fill app]. rewrite Nat.ltb_irrefl, firstn_skipn. eauto.
    + destruct (make_room_fill k (repeat x (S n)) d l Hr) as (d' & E & R & _); [discriminate|exact Hk|apply (rep_icap0 d l); assumption|].
      rewrite repeat_length in E. eauto.
Qed.
Lemma insert_spec k xs d l : rep d l -> k <= length l ->
  exists d', insert T (iter_at T d k) xs d = Some d' /\ rep d' (firstn k l ++ xs ++ skipn k l).
Proof.
  intros Hr Hk. unfold insert. destruct xs as [|x xs0]; [cbn [app]; rewrite firstn_skipn; eauto|].
  set (xs := x :: xs0). assert (Hx : xs <> []) by discriminate. assert (Hx0 : length xs <> 0) by discriminate. clearbody xs. clear x xs0.
  rewrite (iter_begin d l k Hr Hk). destruct (Nat.eqb_spec k 0) as [->|N].
  - cbn [firstn skipn app]. destruct (expand_spec T (length xs) d l Hr) as (d1 & -> & R1 & C1 & I1 & _). specialize (I1 Hx0).
    destruct (rep_ring T d1 l R1) as (HL & R & He); [lia|]. pose proof (proj1 R) as Hb. fold (icap T d1) in *. set (c := icap T d1) in *.
    replace (dbegin d1 + c - length xs) with (dbegin d1 + (c - length xs)) by lia. rewrite mod_ix by lia.
    set (nb := ix c (dbegin d1) (c - length xs)).
    assert (Hnb : nb < c) by (apply ix_lt; lia).
    assert (Lb : length (buf d1) = c) by reflexivity.
    pose proof (ring_shift T (buf d1) (dbegin d1) _ (c - length xs) R) as RS. rewrite Lb in RS. specialize (RS ltac:(lia)). fold nb in RS.
    destruct (fill_spec xs (Deque (buf d1) nb (dend d1)) _ 0 RS) as (u & E & L & R2); cbn [buf dbegin dend] in *.
    + unfold icap. cbn [buf]. lia.
    + intros j Hj. apply nth_error_out. cases; lia.
    + unfold icap in E, L. cbn [buf] in *. rewrite Lb in *. rewrite ix_0 in E by exact Hnb.
      assert (X : ix c nb (0 + length xs) = dbegin d1) by (unfold nb; rewrite ix_ix by lia; unfold ix; cases; lia).
      rewrite X in E. rewrite E. eexists. split; [reflexivity|]. right. unfold icap. cbn [buf dbegin dend]. rewrite L, app_length. split; [lia|]. split.
      * eapply ring_ext; [exact R2|]. intros j Hj. unfold filled. rewrite nth_error_app'. cases; cbn [andb Nat.add] in *; try lia; first [f_equal; lia | rewrite !(nth_error_out l) by lia; reflexivity].
      * rewrite He. unfold nb, ix. cases; lia.
  - destruct (make_room_fill k xs d l Hr Hx Hk) as (d' & E & R & _); [apply (rep_icap0 d l); assumption|].
    exists d'. split; [|exact R]. destruct xs; [congruence|exact E].
Qed.
Lemma emplace_spec k x d l : rep d l -> k <= length l ->
  exists d', emplace T (iter_at T d k) x d = Some (d', iter_at T d' k) /\ rep d' (firstn k l ++ [x] ++ skipn k l).
Proof.
  intros Hr Hk. unfold emplace. rewrite (iter_begin d l k Hr Hk). destruct (Nat.eqb_spec k 0) as [->|N].
  - destruct (emplace_front_spec T x d l Hr) as (d1 & -> & R1 & _). exists d1. split; [reflexivity|exact R1].
  - destruct (make_room_spec 1 k d l Hr) as (d1 & E & R & HL & He); [lia|exact Hk|apply (rep_icap0 d l); assumption|].
    destruct (make_room_fill k [x] d l Hr) as (d' & E2 & R2 & I2); [discriminate|exact Hk|apply (rep_icap0 d l); assumption|].
    cbn [length] in E2. rewrite E in *. cbn [fill] in E2. pose proof (proj1 R) as Hb. fold (icap T d1) in Hb.
    assert (Hoff : forall j, j < icap T d1 -> offset_from_begin T d1 (ix (icap T d1) (dbegin d1) j) = j) by (intros j Hj; unfold offset_from_begin, ix; cases; lia).
    rewrite !Hoff in E2 by lia. replace (k <? k + 1) with true in E2 by (cases; lia).
    destruct (construct T (ix (icap T d1) (dbegin d1) k) x (buf d1)) as [u|] eqn:C; [|discriminate].
    exists d'. split; [|exact R2]. destruct (offset_from_begin _ _ _ <? _) in E2; [discriminate|]. injection E2 as E2. rewrite E2. f_equal. f_equal.
    rewrite I2, <- E2. unfold icap. cbn [buf dbegin]. unfold construct in C. destruct (nth_error (buf d1) _) as [[|]|]; try discriminate. injection C as <-.
    rewrite set_nth_length. reflexivity.
Qed.
(** erase *)
Definition erasing l i j m : nat -> option T := fun k =>
  if k <? i then nth_error l k else if k <? i + m then nth_error l (k + (j - i)) else if k <? j + m then None else nth_error l k.
Lemma shift_left_spec i j l d : i < j -> j <= length l -> length l < icap T d -> dend d = ix (icap T d) (dbegin d) (length l) -> dbegin d < icap T d ->
  forall n m fuel (u : cells), length u = icap T d -> ring u (dbegin d) (erasing l i j m) -> n = length l - (j + m) -> j + m <= length l -> n <= fuel ->
  exists u', shift_left T fuel d (ix (icap T d) (dbegin d) (j + m)) (ix (icap T d) (dbegin d) (i + m)) u = Some (u', ix (icap T d) (dbegin d) (i + (length l - j))) /\
    length u' = icap T d /\ ring u' (dbegin d) (erasing l i j (length l - j)).
Proof.
  intros Hij Hj HL He Hb. set (c := icap T d) in *.
  assert (Hoff : forall k, k < c -> offset_from_begin T d (ix c (dbegin d) k) = k) by (intros k Hk; unfold offset_from_begin; fold c; unfold ix; cases; lia).
  induction n as [|n IH]; intros m fuel u Lu R En Hm Hf.
  - exists u. assert (m = length l - j) by lia. subst m. split; [|auto]. destruct fuel; cbn [shift_left]; rewrite He, !Hoff by lia.
    + replace (j + (length l - j) <? length l) with false by (cases; lia). reflexivity.
    + replace (j + (length l - j) <? length l) with false by (cases; lia). reflexivity.
  - destruct fuel as [|f]; [lia|]. cbn [shift_left]. rewrite He, !Hoff by lia. replace (j + m <? length l) with true by (cases; lia).
    assert (Hgj : erasing l i j m (j + m) = nth_error l (j + m)) by (unfold erasing; cases; try lia; reflexivity).
    destruct (ring_move1 T u (dbegin d) _ (j + m) (i + m) R) as (u1 & E1 & L1 & R1); try lia.
    { rewrite Hgj. apply nth_error_Some. lia. }
    { unfold erasing. cases; try lia. reflexivity. }
    rewrite Lu in E1. rewrite E1. fold c. rewrite !ix_incr by lia. rewrite <- !Nat.add_succ_r.
    apply IH; try lia. eapply ring_ext; [exact R1|]. intros k Hk. unfold upd. rewrite Hgj. unfold erasing. cases; try lia; try reflexivity.
    subst k. f_equal. lia.
Qed.
Lemma erase_spec i j d l : rep d l -> i <= j <= length l ->
  exists d', erase T (iter_at T d i) (iter_at T d j) d = Some (d', iter_at T d' i) /\ rep d' (firstn i l ++ skipn j l).
Proof.
  intros Hr Hij. unfold erase. destruct (Nat.eqb_spec (iter_at T d i) (iter_at T d j)) as [E|N].
  - assert (i = j).
    { destruct Hr as [(E0 & -> & H)|(H & R)]; [cbn in Hij; lia|]. assert (icap T d <> 0) by lia.
      rewrite !(iter_ix d l) in E by (try right; auto; lia). apply ix_inj in E; try lia. apply R. }
    subst j. rewrite firstn_skipn. exists d. auto.
  - assert (Hne : i <> j) by congruence.
    assert (HN : icap T d <> 0) by (destruct Hr as [(E0 & -> & H)|(H & R)]; [cbn in Hij; lia|lia]).
    rewrite !(iter_ix d l) in * by (auto; lia).
    destruct (rep_ring T d l Hr HN) as (HL & R & He). pose proof (proj1 R) as Hb. fold (icap T d) in *.
    assert (Lb : length (buf d) = icap T d) by reflexivity.
    destruct (ring_destruct_range T _ _ _ i j R) as (u & E & Lu & R1); [lia|intros k Hk; apply nth_error_Some; lia|].
    rewrite Lb in *. unfold destruct_range in E. rewrite Lb in E. destruct (Nat.eqb_spec (ix (icap T d) (dbegin d) j) (ix (icap T d) (dbegin d) i)) as [|_]; [congruence|].
    rewrite E.
    assert (Hfl : length (firstn i l ++ skipn j l) = i + (length l - j)) by (rewrite app_length, firstn_length, skipn_length; lia).
    assert (Hg : forall k, nth_error (firstn i l ++ skipn j l) k = if k <? i then nth_error l k else nth_error l (k + (j - i))).
    { intros k. rewrite nth_error_app', firstn_length, nth_error_firstn', nth_error_skipn', Nat.min_l by lia. cases; try reflexivity. f_equal. lia. }
    destruct (Nat.eqb_spec (ix (icap T d) (dbegin d) i) (dbegin d)) as [EB|NB].
    + assert (i = 0) by (unfold ix in EB; revert EB; cases; lia). subst i.
      exists (Deque u (ix (icap T d) (dbegin d) j) (dend d)). split; [reflexivity|]. right. unfold icap. cbn [buf dbegin dend]. rewrite Lu, Hfl. split; [lia|]. split.
      * pose proof (ring_shift T u (dbegin d) _ j R1) as RS. rewrite Lu in RS. specialize (RS ltac:(lia)).
        eapply ring_ext; [exact RS|]. rewrite Lu. intros k Hk. rewrite Hg. cases; cbn [andb]; try lia; first [f_equal; lia | rewrite !(nth_error_out l) by lia; reflexivity].
      * rewrite He, ix_ix by lia. f_equal. lia.
    + assert (i <> 0) by (intros ->; apply NB; apply ix_0; exact Hb).
      destruct (shift_left_spec i j l d) with (n := length l - (j + 0)) (m := 0) (fuel := icap T d) (u := u) as (u2 & E2 & L2 & R2); try lia; try assumption.
      { eapply ring_ext; [exact R1|]. intros k Hk. unfold erasing. cases; cbn [andb]; try lia; reflexivity. }
      rewrite !Nat.add_0_r in E2. rewrite E2. exists (Deque u2 (dbegin d) (ix (icap T d) (dbegin d) (i + (length l - j)))). split.
      * f_equal. f_equal. unfold iter_at, icap. cbn [buf dbegin]. rewrite L2. cases; [lia|]. rewrite Nat.add_comm, mod_ix by lia. reflexivity.
      * right. unfold icap. cbn [buf dbegin dend]. rewrite L2, Hfl. split; [lia|]. split; [|reflexivity].
        eapply ring_ext; [exact R2|]. intros k Hk. rewrite Hg. unfold erasing. cases; try lia; try reflexivity; rewrite !nth_error_out by lia; reflexivity.
Qed.

Lemma removelast_app' l x : removelast (l ++ [x]) = l.
Proof. apply removelast_last. Qed.
Lemma step_spec o d l : rep d l -> legal T o l -> exists d', step T o d = Some d' /\ rep d' (list_step T o l).
Proof.
  intros Hr HG. destruct o; cbn [step list_step legal] in *.
  - apply emplace_back_spec; exact Hr.
  - destruct (emplace_front_spec T x d l Hr) as (d' & E & R & _). eauto.
  - destruct (exists_last HG) as (r & x & ->). rewrite removelast_app'. eapply pop_back_spec. exact Hr.
  - destruct l as [|x l]; [congruence|]. eapply pop_front_spec. exact Hr.
  - apply insert_n_spec; assumption.
  - apply insert_spec; assumption.
  - destruct (emplace_spec k x d l Hr HG) as (d' & E & R). exists d'. rewrite E. split; [reflexivity|exact R].
  - destruct (erase_spec i j d l Hr HG) as (d' & E & R). exists d'. rewrite E. split; [reflexivity|exact R].
  - apply resize_spec. exact Hr.
  - destruct (reserve_spec T n d l Hr) as (d' & E & R & _). eauto.
  - destruct (shrink_to_fit_spec T d l Hr) as (d' & E & R & _). eauto.
  - destruct (clear_spec T d l Hr) as (d' & E & R & _). eauto.
  - eapply assign_n_spec; exact Hr.
  - eapply assign_spec; exact Hr.
  - eapply assign_init_spec; exact Hr.
Qed.
Lemma run_spec os : forall d l, rep d l -> legal_run T os l -> exists d', run T os d = Some d' /\ rep d' (list_run T os l).
Proof.
  induction os as [|o os IH]; intros d l Hr HG; cbn [run legal_run list_run fold_left] in *; [eauto|].
  destruct HG as [H1 H2]. destruct (step_spec o d l Hr H1) as (d1 & -> & R1). apply IH; assumption.
Qed.
Lemma rep_init : rep (empty_deque T) [].
Proof. left. auto. Qed.

(** Observers. *)
Lemma at_spec d l i : rep d l -> i < length l -> at_ T i d = nth_error l i.
Proof.
  intros Hr Hi. assert (HN : icap T d <> 0) by (destruct Hr as [(E0 & -> & H)|(H & R)]; [cbn in Hi; lia|lia]).
  destruct (rep_ring T d l Hr HN) as (HL & R & He). pose proof (proj1 R) as Hb. fold (icap T d) in *.
  rewrite <- (ring_load T _ _ _ i R) by (fold (icap T d); lia). fold (icap T d). unfold at_. rewrite He.
  destruct ((dbegin d <=? _) || _) eqn:C; f_equal; unfold ix in *; revert C; cases; cbn [orb]; intros; try discriminate; lia.
Qed.
Lemma iterate_spec d l : rep d l -> icap T d <> 0 -> forall n k fuel, n = length l - k -> k <= length l -> n <= fuel ->
  iterate T fuel d (ix (icap T d) (dbegin d) k) = Some (skipn k l).
Proof.
  intros Hr HN. destruct (rep_ring T d l Hr HN) as (HL & R & He). pose proof (proj1 R) as Hb. fold (icap T d) in *.
  induction n as [|n IH]; intros k fuel En Hk Hf.
  - assert (k = length l) by lia. subst k. rewrite skipn_all. destruct fuel; cbn [iterate]; rewrite He, Nat.eqb_refl; reflexivity.
  - destruct fuel as [|f]; [lia|]. cbn [iterate]. rewrite He. destruct (Nat.eqb_spec (ix (icap T d) (dbegin d) k) (ix (icap T d) (dbegin d) (length l))) as [E|_]; [apply ix_inj in E; lia|].
    pose proof (ring_load T _ _ _ k R) as X. fold (icap T d) in X. rewrite X by lia.
    destruct (nth_error_in l k) as [x Hx]; [lia|]. rewrite Hx, ix_incr by lia. rewrite IH by lia.
    assert (skipn k l = x :: skipn (S k) l) as ->; [|reflexivity].
    apply nth_error_ext''. intros i. rewrite nth_error_skipn'. destruct i; [rewrite Nat.add_0_r; exact Hx|]. cbn [nth_error]. rewrite nth_error_skipn'. f_equal. lia.
Qed.
Lemma elements_spec d l : rep d l -> elements T d = Some l.
Proof.
  intros Hr. unfold elements. destruct (Nat.eq_dec (icap T d) 0) as [Z|HN].
  - destruct Hr as [(E & -> & H)|(H & _)]; [|lia]. rewrite Z. cbn [iterate]. rewrite H, Nat.eqb_refl. reflexivity.
  - destruct (rep_ring T d l Hr HN) as (HL & [Hb _] & He). pose proof (iterate_spec d l Hr HN (length l) 0 (icap T d)) as X.
    rewrite ix_0 in X by exact Hb. apply X; lia.
Qed.
Lemma riterate_spec d l : rep d l -> icap T d <> 0 -> forall k fuel, k <= length l -> k <= fuel ->
  riterate T fuel d (ix (icap T d) (dbegin d) k) = Some (rev (firstn k l)).
Proof.
  intros Hr HN. destruct (rep_ring T d l Hr HN) as (HL & R & He). pose proof (proj1 R) as Hb. fold (icap T d) in *.
  induction k as [|k IH]; intros fuel Hk Hf.
  - rewrite ix_0 by exact Hb. destruct fuel; cbn [riterate]; rewrite Nat.eqb_refl; reflexivity.
  - destruct fuel as [|f]; [lia|]. cbn [riterate]. rewrite ix_decr by lia.
    replace (ix (icap T d) (dbegin d) (S k) =? dbegin d) with false by (unfold ix; cases; lia).
    pose proof (ring_load T _ _ _ k R) as X. fold (icap T d) in X. rewrite X by lia.
    destruct (nth_error_in l k) as [x Hx]; [lia|]. rewrite Hx, IH by lia.
    assert (firstn (S k) l = firstn k l ++ [x]) as ->; [|rewrite rev_app_distr; reflexivity].
    apply nth_error_ext''. intros i. rewrite nth_error_app', !nth_error_firstn', firstn_length, Nat.min_l by lia. cases; try lia; try reflexivity.
    + assert (i = k) by lia. subst i. rewrite Nat.sub_diag. exact Hx.
    + rewrite nth_error_out by (cbn; lia). reflexivity.
Qed.
Lemma relements_spec d l : rep d l -> relements T d = Some (rev l).
Proof.
  intros Hr. unfold relements. destruct (Nat.eq_dec (icap T d) 0) as [Z|HN].
  - destruct Hr as [(E & -> & H)|(H & _)]; [|lia]. rewrite Z. cbn [riterate]. rewrite H, Nat.eqb_refl. reflexivity.
  - destruct (rep_ring T d l Hr HN) as (HL & [Hb _] & He). rewrite He. rewrite (riterate_spec d l Hr HN) by lia. rewrite firstn_all. reflexivity.
Qed.
Lemma front_back d l : rep d l -> l <> [] -> front T d = hd_error l /\ back T d = hd_error (rev l).
Proof.
  intros Hr Hl. destruct (exists_last Hl) as (r & x & ->).
  assert (HN : icap T d <> 0) by (destruct Hr as [(E0 & E & H)|(H & R)]; [destruct r; discriminate|lia]).
  destruct (rep_ring T d _ Hr HN) as (HL & R & He). pose proof (proj1 R) as Hb. fold (icap T d) in *. rewrite app_length in *. cbn [length] in *. split.
  - unfold front. pose proof (ring_load T _ _ _ 0 R) as X. fold (icap T d) in X. rewrite ix_0 in X by exact Hb. rewrite X by lia.
    destruct (r ++ [x]) as [|y t] eqn:E; [destruct r; discriminate|reflexivity].
  - unfold back. rewrite He. replace (length r + 1) with (S (length r)) by lia. rewrite ix_decr by lia.
    pose proof (ring_load T _ _ _ (length r) R) as X. fold (icap T d) in X. rewrite X by lia.
    rewrite nth_error_app2, Nat.sub_diag, rev_app_distr by lia. reflexivity.
Qed.
Lemma destructor_spec d l : rep d l -> destructor T d = Some tt.
Proof.
  intros Hr. destruct (clear_retain_spec T d l Hr) as (d' & E & _ & _ & RR). unfold destructor, clear_retain in *.
  destruct (destruct_range T (dbegin d) (dend d) (buf d)); [|discriminate]. injection E as <-. exact RR.
Qed.
Lemma rep_observes d l : rep d l -> observes T d l.
Proof.
  intros Hr. split; [apply rep_size; exact Hr|]. split; [apply rep_empty; exact Hr|]. split; [intros; apply at_spec; assumption|].
  split; [apply front_back; exact Hr|]. split; [apply elements_spec; exact Hr|]. split; [apply relements_spec; exact Hr|].
  split; [apply rep_capacity; exact Hr|]. eapply destructor_spec; exact Hr.
Qed.
(** Two deques. *)
Lemma rep_blank n : rep (Deque (repeat None (n + 1)) 0 0) [].
Proof.
  right. unfold icap. cbn [buf dbegin dend length]. rewrite repeat_length. split; [lia|]. split; [|rewrite ix_0; lia]. split; rewrite repeat_length; [lia|].
  intros k Hk. rewrite ?repeat_length in *. rewrite nth_error_repeat'. replace (ix (n + 1) 0 k <? n + 1) with true by (symmetry; apply Nat.ltb_lt; apply ix_lt; lia). destruct k; reflexivity.
Qed.
Lemma copy_construct_spec d l : rep d l -> exists d', copy_construct T d = Some d' /\ rep d' l.
Proof.
  intros Hr. unfold copy_construct. rewrite (elements_spec d l Hr), (rep_size T d l Hr).
  exact (emplace_back_list_spec T l _ [] (rep_blank (length l))).
Qed.
Lemma copy_assign_spec d m e l : rep d m -> rep e l -> exists d', copy_assign T d e = Some d' /\ rep d' l.
Proof.
  intros Hd He. unfold copy_assign. rewrite (rep_size T e l He). destruct (reserve_spec T (length l) d m Hd) as (d1 & -> & R1 & _).
  rewrite (elements_spec e l He). eapply assign_spec. exact R1.
Qed.
Lemma move_assign_spec d m e l : rep d m -> rep e l -> exists d1 d2, move_assign T d e = Some (d1, d2) /\ rep d1 l /\ rep d2 [].
Proof.
  intros Hd He. unfold move_assign. destruct (clear_retain_spec T d m Hd) as (d' & -> & _ & _ & RR). rewrite RR.
  exists e, (Deque [] 0 0). split; [reflexivity|]. split; [exact He|left; auto].
Qed.
Lemma push_back_own_spec i d l x : rep d l -> nth_error l i = Some x -> length l + 1 <= capacity T d ->
  exists d', push_back_own T i d = Some d' /\ rep d' (l ++ [x]).
Proof.
  intros Hr Hx Hc. destruct (emplace_back_spec T x d l Hr) as (d' & E & R). exists d'. split; [|exact R].
  unfold push_back_own, emplace_back in *. destruct (expand_spec T 1 d l Hr) as (d1 & E1 & _ & _ & _ & S1). rewrite E1 in *. rewrite (S1 Hc) in *.
  rewrite (rep_size T d l Hr). replace (length l + 1 <=? capacity T d) with true by (cases; lia).
  rewrite (at_spec d l i Hr) by (apply nth_error_Some; congruence). rewrite Hx. exact E.
Qed.

(** Histories over several deques. *)
Definition reps (ds : list (deque T)) (ls : list (list T)) : Prop := Forall2 rep ds ls.
Lemma Forall2_nth {A B} (R : A -> B -> Prop) la lb : Forall2 R la lb -> forall i (y : B), nth_error lb i = Some y -> exists x, nth_error la i = Some x /\ R x y.
Proof. induction 1 as [|x0 y0 la lb H _ IH]; intros [|i] y E; cbn in *; try discriminate; [injection E as <-; eauto|eauto]. Qed.
Lemma Forall2_set {A B} (R : A -> B -> Prop) la lb : Forall2 R la lb -> forall i (x : A) (y : B), R x y -> Forall2 R (set_nth i x la) (set_nth i y lb).
Proof. induction 1; intros [|i] x0 y0 HR; cbn; constructor; auto. Qed.
Lemma sstep_spec o ds ls ls' : reps ds ls -> list_sstep T o ls = Some ls' -> slegal T o ls -> exists ds', sstep T o ds = Some ds' /\ reps ds' ls'.
Proof.
  intros HR HS HG. destruct o as [i o|i|i j|i|i j|i j]; cbn [sstep list_sstep slegal] in *.
  - destruct (nth_error ls i) as [l|] eqn:E; [|discriminate]. injection HS as <-. destruct (Forall2_nth _ _ _ HR i l E) as (d & -> & R).
    destruct (step_spec o d l R (HG l eq_refl)) as (d' & -> & R'). eexists. split; [reflexivity|]. apply Forall2_set; assumption.
  - destruct (nth_error ls i) as [l|] eqn:E; [|discriminate]. injection HS as <-. destruct (Forall2_nth _ _ _ HR i l E) as (d & -> & R).
    destruct (copy_construct_spec d l R) as (d' & -> & R'). eexists. split; [reflexivity|]. apply Forall2_app; [exact HR|]. constructor; [exact R'|constructor].
  - destruct (nth_error ls i) as [l|] eqn:E; [|discriminate]. destruct (nth_error ls j) as [m|] eqn:E2; [|discriminate]. injection HS as <-.
    destruct (Forall2_nth _ _ _ HR i l E) as (d & -> & R). destruct (Forall2_nth _ _ _ HR j m E2) as (e & -> & R2).
    destruct (Nat.eqb_spec i j) as [->|N].
    + eexists. split; [reflexivity|]. rewrite E in E2. injection E2 as <-. 
      assert (set_nth j l ls = ls) as ->; [|exact HR]. clear - E. revert j E. induction ls as [|y ls IH]; intros [|j] E; cbn in *; try discriminate; [injection E as ->; reflexivity|f_equal; auto].
    + destruct (copy_assign_spec d l e m R R2) as (d' & -> & R'). eexists. split; [reflexivity|]. apply Forall2_set; assumption.
  - destruct (nth_error ls i) as [l|] eqn:E; [|discriminate]. injection HS as <-. destruct (Forall2_nth _ _ _ HR i l E) as (d & -> & R).
    cbn [move_construct]. eexists. split; [reflexivity|]. apply Forall2_app; [|constructor; [exact R|constructor]]. apply Forall2_set; [exact HR|left; auto].
  - destruct (nth_error ls i) as [l|] eqn:E; [|discriminate]. destruct (nth_error ls j) as [m|] eqn:E2; [|discriminate]. injection HS as <-.
    destruct (Forall2_nth _ _ _ HR i l E) as (d & -> & R). destruct (Forall2_nth _ _ _ HR j m E2) as (e & -> & R2).
    destruct (Nat.eqb_spec i j) as [->|N]; [eauto|].
    destruct (move_assign_spec d l e m R R2) as (d1 & d2 & -> & R3 & R4). eexists. split; [reflexivity|]. apply Forall2_set; [apply Forall2_set; assumption|assumption].
  - destruct (nth_error ls i) as [l|] eqn:E; [|discriminate]. destruct (nth_error ls j) as [m|] eqn:E2; [|discriminate]. injection HS as <-.
    destruct (Forall2_nth _ _ _ HR i l E) as (d & -> & R). destruct (Forall2_nth _ _ _ HR j m E2) as (e & -> & R2).
    cbn [swap]. eexists. split; [reflexivity|]. apply Forall2_set; [apply Forall2_set; assumption|assumption].
Qed.
Lemma srun_spec os : forall ds ls ls', reps ds ls -> list_srun T os ls ls' -> exists ds', srun T os ds = Some ds' /\ reps ds' ls'.
Proof.
  induction os as [|o os IH]; intros ds ls ls' HR H; inversion H as [|o' r' l1' l2 l3' HG HS HT]; subst; cbn [srun]; [eauto|].
  destruct (sstep_spec o ds ls l2 HR HS HG) as (d1 & -> & R1). eapply IH; eassumption.
Qed.
Lemma reps_observes ds ls : reps ds ls -> Forall2 (observes T) ds ls.
Proof. induction 1; constructor; auto. apply rep_observes. assumption. Qed.
Lemma reps_init n : reps (repeat (empty_deque T) n) (repeat [] n).
Proof. induction n; cbn; constructor; auto. apply rep_init. Qed.
End Proof2.
