From Coq Require Import ZArith List Bool Lia Arith.
From Verif Require Import BigIntModel PrimeFieldModel BufferModel BufferSpec BufferProof RngModel RngSpec.
Import ListNotations.
Open Scope Z_scope.

(** ** Words *)
Lemma u32_small x : 0 <= x < 2 ^ 32 -> u32 x = x.
Proof. intros H. apply Z.mod_small. exact H. Qed.
Lemma u32_range x : 0 <= u32 x < 2 ^ 32.
Proof. apply Z.mod_pos_bound. reflexivity. Qed.
Lemma lxor_range k a b : 0 <= k -> 0 <= a < 2 ^ k -> 0 <= b < 2 ^ k -> 0 <= Z.lxor a b < 2 ^ k.
Proof.
  intros Hk [Ha1 Ha2] [Hb1 Hb2].
  assert (H0 : 0 <= Z.lxor a b) by (apply Z.lxor_nonneg; tauto).
  split; [exact H0|]. destruct (Z.eq_dec (Z.lxor a b) 0) as [E|E]; [rewrite E; apply Z.pow_pos_nonneg; lia|].
  apply Z.log2_lt_pow2; [lia|]. eapply Z.le_lt_trans; [apply Z.log2_lxor; assumption|].
  apply Z.max_lub_lt.
  - destruct (Z.eq_dec a 0) as [->|N]; [|apply Z.log2_lt_pow2; lia].
    cbn. destruct (Z.eq_dec k 0) as [->|]; [|lia]. cbn in *. assert (b = 0) by lia. subst b. cbn in E. congruence.
  - destruct (Z.eq_dec b 0) as [->|N]; [|apply Z.log2_lt_pow2; lia].
    cbn. destruct (Z.eq_dec k 0) as [->|]; [|lia]. cbn in *. assert (a = 0) by lia. subst a. cbn in E. congruence.
Qed.
Lemma shiftr_range k n a : 0 <= n -> 0 <= a < 2 ^ k -> 0 <= Z.shiftr a n < 2 ^ k.
Proof.
  intros Hn [H1 H2]. rewrite Z.shiftr_div_pow2 by exact Hn. assert (0 < 2 ^ n) by (apply Z.pow_pos_nonneg; lia).
  split; [apply Z.div_pos; lia|]. apply Z.div_lt_upper_bound; [lia|]. nia.
Qed.

Lemma word_at_cons (l : list Z) i : (4 * i + 4 <= length l)%nat ->
  word_at l i = le_word l i.
Proof.
  intros Hl. unfold word_at, le_word.
  assert (N : forall k, (k < 4)%nat -> nth (4 * i + k) l 0 = nth k (firstn 4 (skipn (4 * i) l)) 0).
  { intros k Hk. rewrite <- (firstn_skipn (4 * i) l) at 1. rewrite app_nth2; rewrite firstn_length, Nat.min_l by lia; [|lia].
    replace (4 * i + k - 4 * i)%nat with k by lia.
    rewrite <- (firstn_skipn 4 (skipn (4 * i) l)) at 1. apply app_nth1. rewrite firstn_length, skipn_length. lia. }
  rewrite (N 1%nat), (N 2%nat), (N 3%nat) by lia. specialize (N 0%nat ltac:(lia)). rewrite Nat.add_0_r in N. rewrite N.
  assert (L : length (firstn 4 (skipn (4 * i) l)) = 4%nat) by (rewrite firstn_length, skipn_length; lia).
  destruct (firstn 4 (skipn (4 * i) l)) as [|a [|b [|c [|d [|e r]]]]]; try discriminate L.
  cbn [le_value nth]. lia.
Qed.
Lemma le_word_range n l i : byte_string n l -> 0 <= le_word l i < 2 ^ 32.
Proof.
  intros [_ F]. unfold le_word.
  assert (B : forall k, 0 <= nth k l 0 < 256).
  { intros k. destruct (nth_in_or_default k l 0) as [H|H]; [rewrite Forall_forall in F; apply F, H | rewrite H; lia]. }
  pose proof (B (4 * i)%nat). pose proof (B (4 * i + 1)%nat). pose proof (B (4 * i + 2)%nat). pose proof (B (4 * i + 3)%nat).
  change (2 ^ 8) with 256. change (2 ^ 16) with 65536. change (2 ^ 24) with 16777216. change (2 ^ 32) with 4294967296. lia.
Qed.

(** ** The xorshift step *)
Definition wf (s : xs) : Prop :=
  0 <= xs_x s < 2 ^ 32 /\ 0 <= xs_y s < 2 ^ 32 /\ 0 <= xs_z s < 2 ^ 32 /\ 0 <= xs_w s < 2 ^ 32.
Definition fwd_t (x : Z) : Z := Z.lxor x (u32 (Z.shiftl x 11)).
Definition fwd_w (t : Z) : Z := Z.lxor t (Z.shiftr t 8).
Lemma fwd_t_range x : 0 <= x < 2 ^ 32 -> 0 <= fwd_t x < 2 ^ 32.
Proof. intros H. apply lxor_range; [lia|exact H|apply u32_range]. Qed.
Lemma fwd_w_range x : 0 <= x < 2 ^ 32 -> 0 <= fwd_w x < 2 ^ 32.
Proof. intros H. apply lxor_range; [lia|exact H|apply shiftr_range; [lia|exact H]]. Qed.

Lemma fwd_w_inj a b : 0 <= a < 2 ^ 32 -> 0 <= b < 2 ^ 32 -> fwd_w a = fwd_w b -> a = b.
Proof.
  intros Ha Hb E. unfold fwd_w in E.
  assert (Ed : Z.lxor a b = Z.shiftr (Z.lxor a b) 8).
  { rewrite Z.shiftr_lxor.
    apply (f_equal (fun z => Z.lxor z (Z.lxor b (Z.shiftr a 8)))) in E.
    replace (Z.lxor (Z.lxor a (Z.shiftr a 8)) (Z.lxor b (Z.shiftr a 8))) with (Z.lxor a b) in E.
    2:{ apply Z.bits_inj'. intros n Hn. rewrite !Z.lxor_spec. destruct (Z.testbit a n), (Z.testbit b n), (Z.testbit (Z.shiftr a 8) n); reflexivity. }
    rewrite E. apply Z.bits_inj'. intros n Hn. rewrite !Z.lxor_spec.
    destruct (Z.testbit b n), (Z.testbit (Z.shiftr a 8) n), (Z.testbit (Z.shiftr b 8) n); reflexivity. }
  pose proof (lxor_range 32 a b ltac:(lia) Ha Hb) as R. set (d := Z.lxor a b) in *.
  rewrite Z.shiftr_div_pow2 in Ed by lia. change (2 ^ 8) with 256 in Ed.
  assert (d = 0) by (pose proof (Z.div_mod d 256 ltac:(lia)); pose proof (Z.mod_pos_bound d 256 ltac:(lia)); lia).
  apply Z.lxor_eq. exact H.
Qed.
Lemma fwd_t_inj a b : 0 <= a < 2 ^ 32 -> 0 <= b < 2 ^ 32 -> fwd_t a = fwd_t b -> a = b.
Proof.
  intros Ha Hb E.
  assert (Hbit : forall x n, 0 <= n < 32 -> Z.testbit (fwd_t x) n = xorb (Z.testbit x n) (Z.testbit x (n - 11))).
  { intros x n Hn. unfold fwd_t, u32. rewrite Z.lxor_spec, Z.mod_pow2_bits_low by lia.
    rewrite Z.shiftl_spec by lia. reflexivity. }
  assert (K : forall k n, (Z.to_nat n < k)%nat -> 0 <= n < 32 -> Z.testbit a n = Z.testbit b n).
  { induction k as [|k IH]; intros n Hk Hn; [lia|].
    pose proof (f_equal (fun z => Z.testbit z n) E) as En. cbn beta in En. rewrite !Hbit in En by exact Hn.
    assert (Ep : Z.testbit a (n - 11) = Z.testbit b (n - 11)).
    { destruct (Z.lt_ge_cases (n - 11) 0); [rewrite !Z.testbit_neg_r by lia; reflexivity|]. apply IH; lia. }
    rewrite Ep in En. destruct (Z.testbit a n), (Z.testbit b n), (Z.testbit b (n - 11)); cbn in En; congruence. }
  apply Z.bits_inj'. intros n Hn. destruct (Z.lt_ge_cases n 32); [apply (K (S (Z.to_nat n))); lia|].
  rewrite <- (Z.mod_small a (2 ^ 32)), <- (Z.mod_small b (2 ^ 32)) by assumption.
  rewrite !Z.mod_pow2_bits_high by lia. reflexivity.
Qed.

Definition xs_step (s : xs) : xs :=
  XS (xs_y s) (xs_z s) (xs_w s)
     (Z.lxor (Z.lxor (xs_w s) (Z.shiftr (xs_w s) 19)) (fwd_w (fwd_t (xs_x s)))).
Lemma xs_next_eq s : xs_next s = Some (xs_w (xs_step s), xs_step s).
Proof. reflexivity. Qed.
Lemma xs_step_wf s : wf s -> wf (xs_step s).
Proof.
  intros (Hx & Hy & Hz & Hw). unfold wf, xs_step; cbn [xs_x xs_y xs_z xs_w].
  split; [exact Hy|]. split; [exact Hz|]. split; [exact Hw|].
  apply lxor_range; [lia| |apply fwd_w_range, fwd_t_range, Hx].
  apply lxor_range; [lia|exact Hw|apply shiftr_range; [lia|exact Hw]].
Qed.
Lemma xs_step_inj a b : wf a -> wf b -> xs_step a = xs_step b -> a = b.
Proof.
  destruct a as [x y z w], b as [x' y' z' w']. intros (Hx & Hy & Hz & Hw) (Hx' & Hy' & Hz' & Hw').
  unfold xs_step; cbn [xs_x xs_y xs_z xs_w] in *. intros E. injection E as -> -> -> E.
  f_equal. apply fwd_t_inj; auto. apply fwd_w_inj; try (apply fwd_t_range; assumption).
  set (c := Z.lxor w' (Z.shiftr w' 19)) in *.
  apply (f_equal (Z.lxor c)) in E. rewrite <- !Z.lxor_assoc, Z.lxor_nilpotent, !Z.lxor_0_l in E. exact E.
Qed.
Fixpoint xs_iter (n : nat) (s : xs) : xs := match n with O => s | S n' => xs_iter n' (xs_step s) end.
Lemma xs_iter_S n s : xs_iter (S n) s = xs_step (xs_iter n s).
Proof. revert s. induction n as [|n IH]; intros s; [reflexivity|]. cbn [xs_iter] in *. rewrite IH. reflexivity. Qed.
Lemma xs_iter_add m n s : xs_iter (m + n) s = xs_iter m (xs_iter n s).
Proof. revert m. induction m as [|m IH]; [reflexivity|]. cbn [Nat.add]. rewrite !xs_iter_S, IH. reflexivity. Qed.
Lemma xs_iter_wf n s : wf s -> wf (xs_iter n s).
Proof. revert s. induction n as [|n IH]; intros s H; [exact H|]. apply IH, xs_step_wf, H. Qed.
Lemma xs_iter_inj n a b : wf a -> wf b -> xs_iter n a = xs_iter n b -> a = b.
Proof.
  revert a b. induction n as [|n IH]; intros a b Ha Hb E; [exact E|].
  apply xs_step_inj; auto. apply IH; auto using xs_step_wf.
Qed.

(** Streams: [draw] of a total step. *)
Lemma draw_xs n s : draw xs_next n s = Some (map (fun i => xs_w (xs_iter (S i) s)) (seq 0 n), xs_iter n s).
Proof.
  revert s. induction n as [|n IH]; intros s; [reflexivity|].
  cbn [draw]. rewrite xs_next_eq, IH. cbn [seq map xs_iter]. f_equal. f_equal. f_equal.
  rewrite <- seq_shift, map_map. reflexivity.
Qed.
Lemma xs_four s : xs_iter 4 s = XS (xs_w (xs_iter 1 s)) (xs_w (xs_iter 2 s)) (xs_w (xs_iter 3 s)) (xs_w (xs_iter 4 s)).
Proof. reflexivity. Qed.
Lemma xs_shift4 k s : xs_iter (k + 4) s = XS (xs_w (xs_iter (k + 1) s)) (xs_w (xs_iter (k + 2) s)) (xs_w (xs_iter (k + 3) s)) (xs_w (xs_iter (k + 4) s)).
Proof.
  replace (k + 4)%nat with (4 + k)%nat by lia. replace (k + 1)%nat with (1 + k)%nat by lia.
  replace (k + 2)%nat with (2 + k)%nat by lia. replace (k + 3)%nat with (3 + k)%nat by lia.
  rewrite !xs_iter_add. apply xs_four.
Qed.

(** The sequence of words. *)
Lemma xs_sequence v s : xorshift128 v -> xs_x s = v 0%nat -> xs_y s = v 1%nat -> xs_z s = v 2%nat -> xs_w s = v 3%nat ->
  forall n, xs_iter n s = XS (v n) (v (n + 1)%nat) (v (n + 2)%nat) (v (n + 3)%nat).
Proof.
  intros R Ex Ey Ez Ew. induction n as [|n IH].
  - cbn. rewrite <- Ex, <- Ey, <- Ez, <- Ew. destruct s; reflexivity.
  - rewrite xs_iter_S, IH. unfold xs_step; cbn [xs_x xs_y xs_z xs_w].
    replace (S n + 1)%nat with (n + 2)%nat by lia. replace (S n + 2)%nat with (n + 3)%nat by lia.
    replace (S n + 3)%nat with (n + 4)%nat by lia. replace (S n) with (n + 1)%nat by lia. f_equal.
    rewrite R. unfold fwd_w, fwd_t, u32. rewrite Z.shiftl_mul_pow2 by lia. rewrite !Z.shiftr_div_pow2 by lia. reflexivity.
Qed.

Definition seed_state (seed : list Z) : xs := XS (le_word seed 0) (le_word seed 1) (le_word seed 2) (le_word seed 3).
Lemma xs_set_seed_ok seed s : byte_string 16 seed -> xs_set_seed seed s = (true, seed_state seed).
Proof.
  intros [L F]. unfold xs_set_seed, seed_state. rewrite L. cbn [Nat.eqb negb].
  rewrite !word_at_cons by lia. reflexivity.
Qed.
Lemma seed_state_wf seed n : byte_string n seed -> wf (seed_state seed).
Proof. intros H. unfold wf, seed_state. cbn [xs_x xs_y xs_z xs_w]. split; [|split; [|split]]; apply (le_word_range n); exact H. Qed.
Lemma bytes_of_word a b c d a' b' c' d' :
  0 <= a < 256 -> 0 <= b < 256 -> 0 <= c < 256 -> 0 <= d < 256 -> 0 <= a' < 256 -> 0 <= b' < 256 -> 0 <= c' < 256 -> 0 <= d' < 256 ->
  a + 2 ^ 8 * b + 2 ^ 16 * c + 2 ^ 24 * d = a' + 2 ^ 8 * b' + 2 ^ 16 * c' + 2 ^ 24 * d' ->
  a = a' /\ b = b' /\ c = c' /\ d = d'.
Proof. change (2 ^ 8) with 256. change (2 ^ 16) with 65536. change (2 ^ 24) with 16777216. intros. lia. Qed.
Lemma list16 {A} (l : list A) : length l = 16%nat -> exists a b c d e f g h i j k m n o p q,
  l = [a; b; c; d; e; f; g; h; i; j; k; m; n; o; p; q].
Proof.
  intros L. do 16 (destruct l as [|? l]; [discriminate L|cbn in L; apply eq_add_S in L]).
  destruct l; [|discriminate L]. repeat eexists.
Qed.
Lemma seed_state_inj s1 s2 : byte_string 16 s1 -> byte_string 16 s2 -> seed_state s1 = seed_state s2 -> s1 = s2.
Proof.
  intros [L1 F1] [L2 F2] E.
  destruct (list16 s1 L1) as (a & b & c & d & e & f & g & h & i & j & k & m & n & o & p & q & ->).
  destruct (list16 s2 L2) as (a' & b' & c' & d' & e' & f' & g' & h' & i' & j' & k' & m' & n' & o' & p' & q' & ->).
  unfold seed_state, le_word in E. cbn [nth Nat.mul Nat.add] in E. injection E as E1 E2 E3 E4.
  repeat match goal with H : Forall _ (_ :: _) |- _ => inversion H; subst; clear H end.
  apply bytes_of_word in E1; auto. apply bytes_of_word in E2; auto. apply bytes_of_word in E3; auto. apply bytes_of_word in E4; auto.
  destruct E1 as (-> & -> & -> & ->), E2 as (-> & -> & -> & ->), E3 as (-> & -> & -> & ->), E4 as (-> & -> & -> & ->). reflexivity.
Qed.

(** *** Facts for the property file *)
Lemma xs_stream : forall seed s, byte_string 16 seed -> exists s',
  xs_set_seed seed s = (true, s') /\
  forall v, xorshift128 v -> (forall i, (i < 4)%nat -> v i = le_word seed i) ->
  forall n, exists s'', draw xs_next n s' = Some (map v (seq 4 n), s'').
Proof.
  intros seed s H. exists (seed_state seed). split; [apply xs_set_seed_ok, H|].
  intros v R H0 n. exists (xs_iter n (seed_state seed)). rewrite draw_xs. f_equal. f_equal.
  replace (seq 4 n) with (map (fun i => (i + 4)%nat) (seq 0 n)).
  2:{ clear. assert (G : forall m k, map (fun i => (i + 4)%nat) (seq k m) = seq (k + 4) m).
      { induction m as [|m IH]; intros k; [reflexivity|]. cbn [seq map]. rewrite IH. reflexivity. }
      apply (G n 0%nat). }
  rewrite map_map. apply map_ext. intros i.
  rewrite (xs_sequence v) by (try exact R; cbn; symmetry; apply H0; lia). cbn [xs_w]. f_equal. lia.
Qed.
Lemma app_tail_eq {A} (a b c d : list A) : length a = length b -> a ++ c = b ++ d -> c = d.
Proof.
  revert b. induction a as [|x a IH]; intros [|y b] L E; try discriminate L; [exact E|].
  injection E as _ E. apply (IH b); [injection L; auto|exact E].
Qed.
Lemma map_four {A} (f g : nat -> A) n : map f (seq (0 + n) 4) = map g (seq (0 + n) 4) ->
  f n = g n /\ f (S n) = g (S n) /\ f (S (S n)) = g (S (S n)) /\ f (S (S (S n))) = g (S (S (S n))).
Proof. cbn [seq map Nat.add]. intros E. injection E as E1 E2 E3 E4. auto. Qed.
(** Four consecutive outputs determine the seed, wherever in the stream they stand. *)
Lemma xs_no_merge : forall s1 s2 seed1 seed2 st1 st2 n, byte_string 16 seed1 -> byte_string 16 seed2 ->
  xs_set_seed seed1 s1 = (true, st1) -> xs_set_seed seed2 s2 = (true, st2) ->
  forall pre1 pre2 last t1 t2, length pre1 = n -> length pre2 = n -> length last = 4%nat ->
  draw xs_next (n + 4) st1 = Some (pre1 ++ last, t1) -> draw xs_next (n + 4) st2 = Some (pre2 ++ last, t2) ->
  seed1 = seed2.
Proof.
  intros s1 s2 seed1 seed2 st1 st2 n H1 H2 E1 E2 pre1 pre2 last t1 t2 L1 L2 L3 D1 D2.
  rewrite xs_set_seed_ok in E1 by exact H1. rewrite xs_set_seed_ok in E2 by exact H2. injection E1 as <-. injection E2 as <-.
  rewrite draw_xs in D1, D2. injection D1 as D1 _. injection D2 as D2 _.
  rewrite seq_app, map_app in D1, D2.
  assert (X1 : map (fun i => xs_w (xs_iter (S i) (seed_state seed1))) (seq (0 + n) 4) = last).
  { apply (app_tail_eq _ _ _ _ ltac:(rewrite map_length, seq_length; symmetry; exact L1) D1). }
  assert (X2 : map (fun i => xs_w (xs_iter (S i) (seed_state seed2))) (seq (0 + n) 4) = last).
  { apply (app_tail_eq _ _ _ _ ltac:(rewrite map_length, seq_length; symmetry; exact L2) D2). }
  rewrite <- X2 in X1. apply map_four in X1. destruct X1 as (Y1 & Y2 & Y3 & Y4).
  apply seed_state_inj; auto. apply (xs_iter_inj (n + 4)); try (eapply seed_state_wf; eassumption).
  rewrite (xs_shift4 n (seed_state seed1)), (xs_shift4 n (seed_state seed2)). replace (n + 1)%nat with (S n) by lia. replace (n + 2)%nat with (S (S n)) by lia.
  replace (n + 3)%nat with (S (S (S n))) by lia. replace (n + 4)%nat with (S (S (S (S n)))) by lia.
  rewrite Y1, Y2, Y3, Y4. reflexivity.
Qed.
Lemma xs_zero : forall s n, exists s' s'',
  xs_set_seed (repeat 0 16) s = (true, s') /\ draw xs_next n s' = Some (repeat 0 n, s'').
Proof.
  intros s n. exists (XS 0 0 0 0). exists (XS 0 0 0 0). split; [reflexivity|].
  induction n as [|n IH]; [reflexivity|]. cbn [draw repeat].
  change (xs_next (XS 0 0 0 0)) with (Some (0, XS 0 0 0 0)). cbn iota beta. rewrite IH. reflexivity.
Qed.
Lemma xs_nonzero : forall s seed st n pre t, byte_string 16 seed -> seed <> repeat 0 16 ->
  xs_set_seed seed s = (true, st) -> length pre = n -> draw xs_next (n + 4) st <> Some (pre ++ [0; 0; 0; 0], t).
Proof.
  intros s seed st n pre t H Hne E L D. apply Hne.
  destruct (xs_zero s (n + 4)) as (z & z' & Ez & Dz).
  apply (xs_no_merge s s seed (repeat 0 16) st z n) with (pre1 := pre) (pre2 := repeat 0 n) (last := [0; 0; 0; 0]) (t1 := t) (t2 := z').
  - exact H.
  - split; [reflexivity|]. apply Forall_forall. intros x Hx. apply repeat_spec in Hx. lia.
  - exact E.
  - exact Ez.
  - exact L.
  - apply repeat_length.
  - reflexivity.
  - exact D.
  - rewrite Dz. rewrite repeat_app. reflexivity.
Qed.
