(** The register holds 80 consecutive bits of the sequence; the draws. *)
From Coq Require Import ZArith List Bool Lia.
From Verif Require Import BigIntModel BigIntSpec BigIntExtra GrainModel GrainSpec GrainProof.
Import ListNotations.
Open Scope nat_scope.

Definition at_pos (b : nat -> bool) (t : nat) (s : lfsr) : Prop :=
  length (g_state s) = 80 /\ g_head s = t mod 80 /\
  forall j, j < 80 -> nth_error (g_state s) ((t + j) mod 80) = Some (b (t + j)).

Lemma set_nth_ok : forall l i v, i < length l -> exists l', set_nth l i v = Some l' /\ length l' = length l /\
  nth_error l' i = Some v /\ forall k, k <> i -> nth_error l' k = nth_error l k.
Proof.
  induction l as [|x l IH]; intros i v L; cbn [length] in L; [lia|].
  destruct i as [|i].
  - exists (v :: l). cbn. split; [reflexivity|]. split; [reflexivity|]. split; [reflexivity|].
    intros [|k] K; [contradiction|reflexivity].
  - destruct (IH i v ltac:(lia)) as [l' [E [A [B C]]]]. exists (x :: l'). cbn. rewrite E.
    split; [reflexivity|]. split; [lia|]. split; [exact B|]. intros [|k] K; [reflexivity|]. apply C. lia.
Qed.
Lemma set_nth_none : forall l i v, length l <= i -> set_nth l i v = None.
Proof.
  induction l as [|x l IH]; intros i v L; [destruct i; reflexivity|]. cbn [length] in L.
  destruct i as [|i]; [lia|]. cbn. rewrite IH by lia. reflexivity.
Qed.

Lemma mod80_inj t i j : i < 80 -> j < 80 -> (t + i) mod 80 = (t + j) mod 80 -> i = j.
Proof.
  intros I J E.
  pose proof (Nat.div_mod (t + i) 80 ltac:(lia)). pose proof (Nat.div_mod (t + j) 80 ltac:(lia)).
  rewrite E in H. set (r := (t + j) mod 80) in *. set (x := (t + i) / 80) in *. set (y := (t + j) / 80) in *. lia.
Qed.

Lemma update_ok b t s : grain b -> at_pos b t s -> exists s',
  update s = Done (b (t + 80), s') /\ at_pos b (t + 1) s' /\ g_prime_bits s' = g_prime_bits s.
Proof.
  intros G [L [H N]]. unfold update, tap. rewrite H.
  rewrite !Nat.add_mod_idemp_l by lia. rewrite !N by lia.
  pose proof (N 0 ltac:(lia)) as N0. rewrite Nat.add_0_r in N0. rewrite N0.
  destruct (set_nth_ok (g_state s) (t mod 80) (b (t + 80))) as [st [E [A [B C]]]].
  { rewrite L. apply Nat.mod_upper_bound. lia. }
  replace (xorb (xorb (xorb (xorb (xorb (b (t + 62)) (b (t + 51))) (b (t + 38))) (b (t + 23))) (b (t + 13))) (b t))
    with (b (t + 80)) by (rewrite G; destruct (b (t + 62)), (b (t + 51)), (b (t + 38)), (b (t + 23)), (b (t + 13)), (b t); reflexivity).
  cbn zeta. rewrite E. eexists. split; [reflexivity|]. split; [|reflexivity].
  split; [cbn [g_state]; lia|]. split; [reflexivity|]. intros j J. cbn [g_state].
  destruct (Nat.eq_dec j 79) as [->|D].
  - replace (t + 1 + 79) with (t + 1 * 80) by lia. rewrite Nat.mod_add by lia. rewrite B. do 2 f_equal; lia.
  - rewrite C.
    + replace (t + 1 + j) with (t + (j + 1)) by lia. apply N. lia.
    + intro E2. replace (t + 1 + j) with (t + (j + 1)) in E2 by lia.
      assert (j + 1 = 0); [|lia]. apply (mod80_inj t); [lia|lia|]. rewrite Nat.add_0_r. exact E2.
Qed.

Lemma update_n_ok b : grain b -> forall n t s, at_pos b t s -> exists s',
  update_n n s = Done (map b (seq (t + 80) n), s') /\ at_pos b (t + n) s' /\ g_prime_bits s' = g_prime_bits s.
Proof.
  intro G. induction n as [|n IH]; intros t s A.
  - exists s. cbn. rewrite Nat.add_0_r. split; [reflexivity|]. split; [exact A|reflexivity].
  - destruct (update_ok b t s G A) as [s1 [E1 [A1 P1]]].
    destruct (IH (t + 1) s1 A1) as [s2 [E2 [A2 P2]]].
    exists s2. cbn [update_n]. rewrite E1. cbn [bind]. rewrite E2. cbn [bind seq map].
    split; [|split; [|congruence]].
    + replace (t + 1 + 80) with (S (t + 80)) by lia. reflexivity.
    + replace (t + S n) with (t + 1 + n) by lia. exact A2.
Qed.

(** The constructor. *)
Lemma fill_ok : forall w v start st, start + w <= length st -> exists st',
  fill_loop v (rev (seq start w)) st = Some st' /\ length st' = length st /\
  (forall j, j < w -> nth_error st' (start + j) = Some (Z.testbit v (Z.of_nat (w - 1 - j)))) /\
  (forall k, k < start \/ start + w <= k -> nth_error st' k = nth_error st k).
Proof.
  induction w as [|w IH]; intros v start st L.
  - exists st. cbn. split; [reflexivity|]. split; [reflexivity|]. split; [intros; lia|reflexivity].
  - rewrite seq_S, rev_app_distr. cbn [rev app fill_loop].
    destruct (set_nth_ok st (start + w) (Z.odd v) ltac:(lia)) as [s1 [E1 [L1 [N1 O1]]]]. rewrite E1.
    destruct (IH (Z.shiftr v 1) start s1 ltac:(lia)) as [s2 [E2 [L2 [N2 O2]]]].
    exists s2. split; [exact E2|]. split; [lia|]. split.
    + intros j J. destruct (Nat.eq_dec j w) as [->|D].
      * rewrite O2 by lia. rewrite N1. replace (S w - 1 - w) with 0 by lia. rewrite Z.bit0_odd. reflexivity.
      * rewrite N2 by lia. rewrite Z.shiftr_spec by lia. do 2 f_equal. lia.
    + intros k K. rewrite O2 by lia. apply O1. lia.
Qed.
Lemma ones_ok : forall w start st, start + w <= length st -> exists st',
  set_ones (seq start w) st = Some st' /\ length st' = length st /\
  (forall j, j < w -> nth_error st' (start + j) = Some true) /\
  (forall k, k < start \/ start + w <= k -> nth_error st' k = nth_error st k).
Proof.
  induction w as [|w IH]; intros start st L.
  - exists st. cbn. split; [reflexivity|]. split; [reflexivity|]. split; [intros; lia|reflexivity].
  - cbn [seq set_ones]. destruct (set_nth_ok st start true ltac:(lia)) as [s1 [E1 [L1 [N1 O1]]]]. rewrite E1.
    destruct (IH (S start) s1 ltac:(lia)) as [s2 [E2 [L2 [N2 O2]]]].
    exists s2. split; [exact E2|]. split; [lia|]. split.
    + intros [|j] J.
      * rewrite O2 by lia. rewrite Nat.add_0_r. exact N1.
      * replace (start + S j) with (S start + j) by lia. apply N2. lia.
    + intros k K. rewrite O2 by lia. apply O1. lia.
Qed.
Lemma initial_state_ok c : exists st, initial_state c = Some st /\ length st = 80 /\
  forall b, initial c b -> forall j, j < 80 -> nth_error st j = Some (b j).
Proof.
  unfold initial_state. set (z := repeat false 80). assert (Lz : length z = 80) by reflexivity.
  assert (Nz : forall j, j < 80 -> nth_error z j = Some false).
  { intros j J. apply nth_error_repeat. exact J. }
  clearbody z.
  destruct (set_nth_ok z 1 true ltac:(lia)) as [s1 [E1 [L1 [N1 O1]]]]. rewrite E1. cbn [obind].
  destruct (set_nth_ok s1 5 (c_inverse c) ltac:(lia)) as [s2 [E2 [L2 [N2 O2]]]]. rewrite E2. cbn [obind].
  unfold fill_state. cbn [Nat.sub Nat.add].
  destruct (fill_ok 12 (c_prime_bits c) 6 s2 ltac:(lia)) as [s3 [E3 [L3 [N3 O3]]]]. rewrite E3. cbn [obind].
  destruct (fill_ok 12 (c_state_len c) 18 s3 ltac:(lia)) as [s4 [E4 [L4 [N4 O4]]]]. rewrite E4. cbn [obind].
  destruct (fill_ok 10 (c_full c) 30 s4 ltac:(lia)) as [s5 [E5 [L5 [N5 O5]]]]. rewrite E5. cbn [obind].
  destruct (fill_ok 10 (c_partial c) 40 s5 ltac:(lia)) as [s6 [E6 [L6 [N6 O6]]]]. rewrite E6. cbn [obind].
  destruct (ones_ok 30 50 s6 ltac:(lia)) as [s7 [E7 [L7 [N7 O7]]]].
  exists s7. split; [exact E7|]. split; [lia|]. clear E1 E2 E3 E4 E5 E6 E7.
  intros b [I0 [I1 [I2 [I3 [I4 [I5 [In [It [If [Ip I50]]]]]]]]]] j J.
  destruct (Nat.lt_ge_cases j 50) as [G|G];
    [|replace j with (50 + (j - 50)) at 1 by (clear - G J; lia); rewrite N7 by (clear - G J; lia); rewrite I50 by (clear - G J; lia); reflexivity].
  rewrite O7 by (clear - G J; lia).
  destruct (Nat.lt_ge_cases j 40) as [G6|G6];
    [|replace j with (40 + (j - 40)) by (clear - G G6 J; lia); rewrite N6, Ip by (clear - G G6 J; lia); reflexivity].
  rewrite O6 by (clear - G G6 J; lia).
  destruct (Nat.lt_ge_cases j 30) as [G5|G5];
    [|replace j with (30 + (j - 30)) by (clear - G6 G5 J; lia); rewrite N5, If by (clear - G6 G5 J; lia); reflexivity].
  rewrite O5 by (clear - G6 G5 J; lia).
  destruct (Nat.lt_ge_cases j 18) as [G4|G4];
    [|replace j with (18 + (j - 18)) by (clear - G5 G4 J; lia); rewrite N4, It by (clear - G5 G4 J; lia); reflexivity].
  rewrite O4 by (clear - G5 G4 J; lia).
  destruct (Nat.lt_ge_cases j 6) as [G3|G3];
    [|replace j with (6 + (j - 6)) by (clear - G4 G3 J; lia); rewrite N3, In by (clear - G4 G3 J; lia); reflexivity].
  rewrite O3 by lia. clear - Nz N1 O1 N2 O2 I0 I1 I2 I3 I4 I5 G3.
  destruct (Nat.eq_dec j 5) as [->|D5]; [congruence|]. rewrite O2 by exact D5.
  destruct (Nat.eq_dec j 1) as [->|D1]; [congruence|]. rewrite O1 by exact D1. rewrite Nz by lia. f_equal.
  assert (K : j = 0 \/ j = 2 \/ j = 3 \/ j = 4) by lia.
  destruct K as [->|[->|[->| ->]]]; symmetry; assumption.
Qed.

Lemma construct_ok c b : grain b -> initial c b -> exists s,
  construct c = Done s /\ at_pos b 160 s /\ g_prime_bits s = c_prime_bits c.
Proof.
  intros G I. unfold construct. destruct (initial_state_ok c) as [st [E [L N]]]. rewrite E.
  set (s0 := {| g_prime_bits := c_prime_bits c; g_state := st; g_head := 0 |}).
  assert (A : at_pos b 0 s0).
  { split; [exact L|]. split; [reflexivity|]. intros j J. cbn [Nat.add]. rewrite Nat.mod_small by exact J.
    apply (N b I j J). }
  destruct (update_n_ok b G 160 0 s0 A) as [s [E1 [A1 P1]]]. rewrite E1. exists s. split; [reflexivity|].
  split; [exact A1|exact P1].
Qed.

(** A sequence for every configuration. *)
Definition wstep (l : list bool) : list bool :=
  tl l ++ [xorb (nth 62 l false) (xorb (nth 51 l false) (xorb (nth 38 l false) (xorb (nth 23 l false) (xorb (nth 13 l false) (nth 0 l false)))))].
Lemma wstep_nth l j : length l = 80 -> j < 79 -> nth j (wstep l) false = nth (S j) l false.
Proof.
  intros L J. unfold wstep. destruct l as [|x l]; [discriminate|]. cbn [tl nth length] in *.
  apply app_nth1. lia.
Qed.
Lemma wstep_last l : length l = 80 -> nth 79 (wstep l) false =
  xorb (nth 62 l false) (xorb (nth 51 l false) (xorb (nth 38 l false) (xorb (nth 23 l false) (xorb (nth 13 l false) (nth 0 l false))))).
Proof.
  intros L. unfold wstep. destruct l as [|x l]; [discriminate|]. cbn [tl length] in *.
  rewrite app_nth2 by lia. replace (79 - length l) with 0 by lia. reflexivity.
Qed.
Lemma wstep_length l : length l = 80 -> length (wstep l) = 80.
Proof. intro L. unfold wstep. destruct l as [|x l]; [discriminate|]. cbn [tl length] in *. rewrite app_length. cbn. lia. Qed.
Definition window (l : list bool) (i : nat) : list bool := Nat.iter i wstep l.
Lemma window_length l i : length l = 80 -> length (window l i) = 80.
Proof. intro L. induction i as [|i IH]; [exact L|]. apply wstep_length, IH. Qed.
Lemma window_nth l : length l = 80 -> forall j i, j < 80 -> nth j (window l i) false = nth 0 (window l (i + j)) false.
Proof.
  intro L. induction j as [|j IH]; intros i J; [rewrite Nat.add_0_r; reflexivity|].
  replace (i + S j) with (S i + j) by lia. rewrite <- IH by lia.
  symmetry. apply (wstep_nth (window l i) j (window_length l i L)). lia.
Qed.
Definition seq_of (l : list bool) (i : nat) : bool := nth 0 (window l i) false.
Lemma seq_of_grain l : length l = 80 -> grain (seq_of l).
Proof.
  intros L i. unfold seq_of.
  rewrite <- (window_nth l L 62 i), <- (window_nth l L 51 i), <- (window_nth l L 38 i), <- (window_nth l L 23 i),
    <- (window_nth l L 13 i) by lia.
  replace (i + 80) with (S i + 79) by lia. rewrite <- (window_nth l L 79 (S i)) by lia.
  apply (wstep_last (window l i) (window_length l i L)).
Qed.
Lemma seq_of_start l j : length l = 80 -> j < 80 -> seq_of l j = nth j l false.
Proof. intros L J. symmetry. apply (window_nth l L j 0 J). Qed.

Definition first_bits (c : config) : list bool :=
  let bin w v := map (fun j => Z.testbit v (Z.of_nat (w - 1 - j))) (seq 0 w) in
  [false; true; false; false; false; c_inverse c] ++ bin 12 (c_prime_bits c) ++ bin 12 (c_state_len c) ++
  bin 10 (c_full c) ++ bin 10 (c_partial c) ++ repeat true 30.
Lemma binary_window (pre post : list bool) w v (b : nat -> bool) :
  let l := pre ++ map (fun j => Z.testbit v (Z.of_nat (w - 1 - j))) (seq 0 w) ++ post in
  (forall j, j < length pre + w -> b j = nth j l false) -> binary_at b (length pre) w v.
Proof.
  intros l H j J. rewrite H by lia. unfold l.
  rewrite app_nth2 by lia. replace (length pre + j - length pre) with j by lia.
  rewrite app_nth1 by (rewrite map_length, seq_length; lia).
  set (g := fun j => Z.testbit v (Z.of_nat (w - 1 - j))).
  rewrite (nth_indep _ false (g 0)) by (rewrite map_length, seq_length; lia).
  rewrite map_nth. rewrite seq_nth by lia. reflexivity.
Qed.
Lemma sequence_exists c : exists b, grain b /\ initial c b.
Proof.
  assert (L : length (first_bits c) = 80) by reflexivity.
  exists (seq_of (first_bits c)). split; [apply seq_of_grain, L|].
  assert (S : forall j, j < 80 -> seq_of (first_bits c) j = nth j (first_bits c) false)
    by (intros; apply seq_of_start; assumption).
  set (b := seq_of (first_bits c)) in *. clearbody b.
  set (bin := fun w v => map (fun j => Z.testbit v (Z.of_nat (w - 1 - j))) (seq 0 w)).
  set (p0 := [false; true; false; false; false; c_inverse c]).
  unfold initial.
  split; [rewrite S by lia; reflexivity|]. split; [rewrite S by lia; reflexivity|].
  split; [rewrite S by lia; reflexivity|]. split; [rewrite S by lia; reflexivity|].
  split; [rewrite S by lia; reflexivity|]. split; [rewrite S by lia; reflexivity|].
  split; [|split; [|split; [|split]]].
  - apply (binary_window p0 (bin 12 (c_state_len c) ++ bin 10 (c_full c) ++ bin 10 (c_partial c) ++ repeat true 30)).
    intros j J. apply S. cbn [length p0] in J. lia.
  - apply (binary_window (p0 ++ bin 12 (c_prime_bits c)) (bin 10 (c_full c) ++ bin 10 (c_partial c) ++ repeat true 30)).
    intros j J. rewrite <- app_assoc. apply S. change (j < 18 + 12) in J. lia.
  - apply (binary_window (p0 ++ bin 12 (c_prime_bits c) ++ bin 12 (c_state_len c)) (bin 10 (c_partial c) ++ repeat true 30)).
    intros j J. rewrite <- !app_assoc. apply S. change (j < 30 + 10) in J. lia.
  - apply (binary_window (p0 ++ bin 12 (c_prime_bits c) ++ bin 12 (c_state_len c) ++ bin 10 (c_full c)) (repeat true 30)).
    intros j J. rewrite <- !app_assoc. apply S. change (j < 40 + 10) in J. lia.
  - intros i I. rewrite S by lia.
    change (first_bits c) with ((p0 ++ bin 12 (c_prime_bits c) ++ bin 12 (c_state_len c) ++ bin 10 (c_full c) ++ bin 10 (c_partial c)) ++ repeat true 30).
    rewrite app_nth2 by (change (i >= 50); lia).
    match goal with |- nth (i - ?k) _ _ = _ => change k with 50 end.
    apply (repeat_spec 30 true). apply nth_In. rewrite repeat_length. lia.
Qed.
