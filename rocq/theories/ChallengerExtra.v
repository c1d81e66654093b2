(** The three challengers, and proof of work. *)
From Coq Require Import ZArith List Bool Arith Lia.
From Verif Require Import BigIntModel SpongeModel SpongeProof SpongeExtra ParallelizeModel ParallelizeSpec ParallelizeProof ParallelizeExtra ChallengerModel ChallengerSpec ChallengerProof.
Import ListNotations.
Open Scope nat_scope.

Lemma read_from_all : forall {F} (l : list F), read_from l 0 (length l) = Some l.
Proof.
  assert (G : forall {F} (r l : list F), read_from (l ++ r) (length l) (length r) = Some r).
  { intros F. induction r as [|a r IH]; intros l; [reflexivity|]. cbn [read_from length]. rewrite nth_error_app2, Nat.sub_diag by lia. cbn [nth_error].
    replace (l ++ a :: r) with ((l ++ [a]) ++ r) by (rewrite <- app_assoc; reflexivity). replace (S (length l)) with (length (l ++ [a])) by (rewrite app_length; cbn; lia). now rewrite IH. }
  intros F l. apply (G F l []).
Qed.

(** ** DuplexChallenger *)
Definition duplex_valid {F : Type} (R W : nat) (c : duplex F F) : Prop :=
  length (state c) = W /\ length (input_buffer c) < R /\ length (output_buffer c) <= W.

Lemma overwrite_length : forall {F} (b l : list F), length b <= length l -> length (overwrite b l) = length l.
Proof. intros F b l H. unfold overwrite. rewrite app_length, skipn_length. lia. Qed.

Section DuplexInstance.
  Context {F : Type}.
  Variables (perm : list F -> list F) (R W : nat).
  Hypothesis perm_length : forall l, length l = W -> length (perm l) = W.
  Hypothesis R_pos : 1 <= R.
  Hypothesis R_le : R <= W.


  Lemma duplex_run_valid : forall ops c, duplex_valid R W c ->
    exists ys c', run (duplex_observe perm R W) (duplex_sample perm W) ops c = Some (ys, c') /\ duplex_valid R W c' /\
      length ys = length (filter (fun o => match o with Sample => true | _ => false end) ops).
  Proof.
    intros ops c H. refine (run_valid _ _ perm R overwrite (fun l => l) (fun l => length l = W) W R_pos _ _ _ _ _ _ ops c H); auto; try lia.
    - intros b l L Hb. apply write_block. lia.
    - intros b l L Hb. rewrite overwrite_length; lia.
    - intros l L. unfold duplex_get. subst W. apply read_from_all.
  Qed.

  Lemma duplex_rounds : forall rounds c, duplex_valid R W c -> input_buffer c = [] -> Forall (fun r => fst r <> [] /\ 1 <= snd r) rounds ->
    exists c', run (duplex_observe perm R W) (duplex_sample perm W) (ops_of rounds) c =
      Some (challenges (duplex_absorb overwrite perm R) perm (@rev F) W (state c) rounds, c') /\ duplex_valid R W c'.
  Proof.
    intros rounds c H. refine (rounds_ok _ _ perm R overwrite (fun l => l) (fun l => length l = W) W R_pos _ _ _ _ _ _ _ rounds c H); auto; try lia.
    - intros b l L Hb. apply write_block. lia.
    - intros b l L Hb. rewrite overwrite_length; lia.
    - intros l L. unfold duplex_get. subst W. apply read_from_all.
  Qed.
End DuplexInstance.

(** Observing x, and observing x and then 0, give the same challenges from the initial state. *)
Lemma duplex_zero_padding : forall {F : Type} (perm : list F -> list F) (zero x : F) (R W k : nat),
  (forall l, length l = W -> length (perm l) = W) -> 2 <= R -> R <= W -> 1 <= k ->
  let c := mk_duplex (repeat zero W) [] [] in
  exists ys c1 c2, run (duplex_observe perm R W) (duplex_sample perm W) (ops_of [([x], k)]) c = Some (ys, c1) /\
                   run (duplex_observe perm R W) (duplex_sample perm W) (ops_of [([x; zero], k)]) c = Some (ys, c2) /\ length ys = k.
Proof.
  intros F perm zero x R W k HP H2 HR Hk c.
  assert (Hc : duplex_valid R W c) by (repeat split; cbn; try rewrite repeat_length; lia).
  destruct (duplex_rounds perm R W HP ltac:(lia) HR [([x], k)] c Hc eq_refl) as (c1 & E1 & _); [repeat constructor; cbn; [discriminate|lia]|].
  destruct (duplex_rounds perm R W HP ltac:(lia) HR [([x; zero], k)] c Hc eq_refl) as (c2 & E2 & _); [repeat constructor; cbn; [discriminate|lia]|].
  destruct (duplex_run_valid perm R W HP ltac:(lia) HR (ops_of [([x], k)]) c Hc) as (ys & c3 & E3 & _ & L).
  assert (K : challenges (duplex_absorb overwrite perm R) perm (@rev F) W (state c) [([x; zero], k)] = challenges (duplex_absorb overwrite perm R) perm (@rev F) W (state c) [([x], k)]).
  { cbn [challenges]. do 3 f_equal. unfold duplex_absorb, c. cbn [state]. clear - H2 HR. destruct R as [|[|R]]; try lia. destruct W as [|[|W]]; try lia. cbn [duplex_blocks length firstn skipn app repeat]. destruct R; reflexivity. }
  exists ys, c3, c2. split; [exact E3|]. split; [rewrite E2, K; congruence|].
  rewrite L. unfold ops_of. cbn [map concat fst snd app filter]. rewrite app_nil_r. clear. induction k as [|k IH]; [reflexivity|]. cbn. now rewrite IH.
Qed.

(** ** MultiField32Challenger *)
Open Scope Z_scope.
Lemma trunc_range : forall w x, 0 < w -> 0 <= trunc w x < 2 ^ w.
Proof. intros w x H. unfold trunc. apply Z.mod_pos_bound. apply Z.pow_pos_nonneg; lia. Qed.
Lemma pack_number : forall n vs, (length vs <= n)%nat -> pack vs = number (2 ^ 32) (map (fun v => v mod 2 ^ 32) vs).
Proof.
  induction n as [|n IH]; intros vs H; [destruct vs; [reflexivity|cbn in H; lia]|].
  destruct vs as [|a [|b r]]; [reflexivity| |].
  - cbn [pack map number]. unfold trunc. lia.
  - cbn [pack map number]. rewrite IH by (cbn in H; lia). unfold trunc.
    pose proof (Z.mod_pos_bound a (2 ^ 32) ltac:(lia)). pose proof (Z.mod_pos_bound b (2 ^ 32) ltac:(lia)).
    rewrite (Z.mod_small (b mod 2 ^ 32 * 2 ^ 32)) by lia. rewrite Z.mod_small by lia. change (2 ^ 64) with (2 ^ 32 * 2 ^ 32). ring.
Qed.
Lemma split_digits : forall p n v, split (to_small_montgomery p) n v = digits64 p n v.
Proof.
  intros p. unfold digits64. assert (G : forall n k v, split (to_small_montgomery p) n (v / 2 ^ (64 * Z.of_nat k)) = map (fun i => (v / 2 ^ (64 * Z.of_nat i)) mod 2 ^ 64 mod p) (seq k n)).
  { induction n as [|n IH]; intros k v; [reflexivity|]. cbn [split seq map]. unfold to_small_montgomery at 1. unfold trunc at 1. f_equal.
    rewrite <- IH. f_equal. rewrite Z.div_div; [|apply Z.pow_nonzero; lia|lia]. f_equal. rewrite <- Z.pow_add_r by lia. f_equal. lia. }
  intros n v. rewrite <- (Z.div_1_r v) at 1. apply (G n 0%nat v).
Qed.
Lemma number_injective : forall B vs ws, 0 < B -> Forall (fun v => 0 <= v < B) vs -> Forall (fun v => 0 <= v < B) ws -> length vs = length ws -> number B vs = number B ws -> vs = ws.
Proof.
  intros B. induction vs as [|v vs IH]; intros [|w ws] HB H1 H2 HL H; try discriminate; [reflexivity|]. cbn [number] in H.
  inversion H1; inversion H2; subst. assert (E : number B vs = number B ws /\ v = w).
  { pose proof (Z.div_mod_unique B (number B vs) (number B ws) v w) as U. apply U; [left; lia|left; lia|lia]. }
  destruct E as [E ->]. f_equal. apply IH; auto.
Qed.
Lemma number_range : forall B vs, 0 < B -> Forall (fun v => 0 <= v < B) vs -> 0 <= number B vs < B ^ Z.of_nat (length vs).
Proof.
  intros B vs HB H. induction H as [|v vs Hv H IH]; [cbn; lia|]. cbn [number length]. rewrite Nat2Z.inj_succ, Z.pow_succ_r by lia. nia.
Qed.
Lemma reduce_injective : forall limbs P vs ws, (length vs < limbs * 2)%nat -> 2 ^ (32 * Z.of_nat (length vs)) <= P -> length vs = length ws ->
  Forall (fun v => 0 <= v < 2 ^ 32) vs -> Forall (fun v => 0 <= v < 2 ^ 32) ws ->
  exists a b, reduce limbs P vs = Some a /\ reduce limbs P ws = Some b /\ 0 <= a < P /\ (a = b -> vs = ws).
Proof.
  intros limbs P vs ws HL HP Hl H1 H2. unfold reduce. rewrite <- Hl. destruct (Nat.ltb_spec (length vs) (limbs * 2)); [|lia].
  assert (M : forall us, Forall (fun v => 0 <= v < 2 ^ 32) us -> map (fun v => v mod 2 ^ 32) us = us).
  { intros us HF. induction HF as [|u us Hu HF IH]; [reflexivity|]. cbn [map]. rewrite IH. f_equal. apply Z.mod_small. lia. }
  rewrite (pack_number _ vs (le_n _)), (pack_number _ ws (le_n _)), !M by assumption.
  pose proof (number_range (2 ^ 32) vs ltac:(lia) H1) as R1. pose proof (number_range (2 ^ 32) ws ltac:(lia) H2) as R2. rewrite <- Hl in R2.
  rewrite <- Z.pow_mul_r in R1, R2 by lia.
  eexists. eexists. split; [reflexivity|]. split; [reflexivity|]. split; [apply Z.mod_pos_bound; lia|]. rewrite !Z.mod_small by lia. apply number_injective; auto; lia.
Qed.
Lemma reduce_value : forall limbs P vs, (length vs < limbs * 2)%nat -> Forall (fun v => 0 <= v < 2 ^ 32) vs -> reduce limbs P vs = Some (number (2 ^ 32) vs mod P).
Proof.
  intros limbs P vs HL H. unfold reduce. destruct (Nat.ltb_spec (length vs) (limbs * 2)); [|lia]. rewrite (pack_number _ vs (le_n _)). do 3 f_equal.
  induction H as [|u us Hu HF IH]; [reflexivity|]. cbn [map length] in *. rewrite IH by lia. f_equal. apply Z.mod_small. lia.
Qed.
Open Scope nat_scope.

Section MultiInstance.
  Variables (limbs : nat) (P p : Z) (N W : nat) (perm : list Z -> list Z).
  Hypothesis perm_length : forall l, length l = W -> length (perm l) = W.
  Hypothesis N_pos : 1 <= N.
  Hypothesis W_pos : 1 <= W.
  Hypothesis N_limbs : N < limbs * 2.

  Lemma groups_length : forall n fuel (b : list Z), length b <= N * n -> length (groups N fuel b) <= n.
  Proof.
    induction n as [|n IH]; intros fuel b H; [destruct b; [destruct fuel; cbn; lia|cbn in H; lia]|].
    destruct b as [|a b]; [destruct fuel; cbn; lia|]. destruct fuel as [|fuel]; [cbn; lia|]. cbn [groups length]. apply le_n_S. apply IH. rewrite skipn_length. lia.
  Qed.
  Definition reduced (g : list Z) : Z := (number (2 ^ 32) (map (fun v => v mod 2 ^ 32) g) mod P)%Z.
  Lemma multi_put_spec : forall fuel (b : list Z) i l, length b <= fuel -> i + length (groups N fuel b) <= length l ->
    multi_put fuel limbs P N i b l = Some (firstn i l ++ map reduced (groups N fuel b) ++ skipn (i + length (groups N fuel b)) l).
  Proof.
    induction fuel as [|fuel IH]; intros b i l H HL.
    - destruct b; [|cbn in H; lia]. cbn. now rewrite Nat.add_0_r, firstn_skipn.
    - destruct b as [|a b]; [cbn; now rewrite Nat.add_0_r, firstn_skipn|]. cbn [multi_put]. cbn [groups length] in HL.
      unfold reduce. destruct (Nat.ltb_spec (length (firstn N (a :: b))) (limbs * 2)) as [_|Hc]; [|rewrite firstn_length in Hc; lia].
      rewrite (pack_number _ _ (le_n _)). fold (reduced (firstn N (a :: b))). rewrite write_at by lia.
      assert (Lf : length (firstn i l) = i) by (apply firstn_length_le; lia).
      rewrite IH; [|rewrite skipn_length; cbn [length] in *; lia|].
      + f_equal. cbn [groups map length]. set (g := groups N fuel (skipn N (a :: b))) in *. set (x := reduced (firstn N (a :: b))).
        rewrite firstn_app, Lf, firstn_firstn. replace (Nat.min (S i) i) with i by lia. replace (S i - i) with 1 by lia. cbn [firstn]. rewrite <- app_assoc. cbn [app]. do 3 f_equal.
        rewrite skipn_app, Lf, (skipn_all2 (firstn i l)) by (rewrite Lf; lia). cbn [app]. replace (S i + length g - i) with (S (length g)) by lia. change (skipn (S (length g)) (x :: skipn (S i) l)) with (skipn (length g) (skipn (S i) l)). rewrite SpongeExtra.skipn_skipn'. f_equal. lia.
      + rewrite app_length, Lf. cbn [length]. rewrite skipn_length. lia.
  Qed.
  Lemma multi_put_ok : forall b l, length l = W -> length b <= N * W -> multi_put (length b) limbs P N 0 b l = Some (multi_overwrite P N b l).
  Proof.
    intros b l L H. rewrite multi_put_spec; [|lia|cbn [Nat.add]; pose proof (groups_length W (length b) b H); lia]. cbn [firstn app Nat.add]. unfold multi_overwrite, overwrite. rewrite map_length. reflexivity.
  Qed.
  Lemma multi_overwrite_length : forall b l, length l = W -> length b <= N * W -> length (multi_overwrite P N b l) = W.
  Proof. intros b l L H. unfold multi_overwrite. rewrite overwrite_length; [exact L|]. rewrite map_length. pose proof (groups_length W (length b) b H). lia. Qed.
  Definition multi_out (l : list Z) : list Z := concat (map (digits64 p N) l).
  Lemma multi_get_ok : forall l, length l = W -> multi_get (to_small_montgomery p) N W l = Some (multi_out l).
  Proof.
    intros l L. unfold multi_get. subst W. rewrite read_from_all. unfold multi_out. do 2 f_equal. apply map_ext. intros v. apply split_digits.
  Qed.
  Lemma multi_out_length : forall l, length l = W -> length (multi_out l) = N * W.
  Proof.
    assert (G : forall l, length (multi_out l) = N * length l).
    { clear. unfold multi_out. induction l as [|v l IH]; [cbn; lia|]. cbn [map concat length]. rewrite app_length, IH. unfold digits64. rewrite map_length, seq_length. lia. }
    intros l L. rewrite G, L. reflexivity.
  Qed.

  Definition multi_valid (c : duplex Z Z) : Prop :=
    length (state c) = W /\ length (input_buffer c) < N * W /\ length (output_buffer c) <= N * W.

  Lemma multi_run_valid : forall ops c, multi_valid c ->
    exists ys c', run (multi_observe limbs P (to_small_montgomery p) N W perm) (multi_sample limbs P (to_small_montgomery p) N W perm) ops c = Some (ys, c') /\ multi_valid c' /\
      length ys = length (filter (fun o => match o with Sample => true | _ => false end) ops).
  Proof.
    intros ops c H. assert (1 <= N * W) by nia.
    refine (run_valid _ _ perm (N * W) (multi_overwrite P N) multi_out (fun l => length l = W) (N * W) _ _ _ _ _ _ _ ops c H); auto using multi_put_ok, multi_overwrite_length, multi_get_ok, multi_out_length.
  Qed.
  Lemma multi_rounds : forall rounds c, multi_valid c -> input_buffer c = [] -> Forall (fun r => fst r <> [] /\ 1 <= snd r) rounds ->
    exists c', run (multi_observe limbs P (to_small_montgomery p) N W perm) (multi_sample limbs P (to_small_montgomery p) N W perm) (ops_of rounds) c =
      Some (challenges (duplex_absorb (multi_overwrite P N) perm (N * W)) perm (fun l => rev (concat (map (digits64 p N) l))) (N * W) (state c) rounds, c') /\ multi_valid c'.
  Proof.
    intros rounds c H. assert (1 <= N * W) by nia.
    refine (rounds_ok _ _ perm (N * W) (multi_overwrite P N) multi_out (fun l => length l = W) (N * W) _ _ _ _ _ _ _ _ rounds c H); auto using multi_put_ok, multi_overwrite_length, multi_get_ok, multi_out_length.
  Qed.
End MultiInstance.

Lemma split_plain_not_reduced : forall p : Z, (0 < p < 2 ^ 32)%Z -> exists v, (0 <= v < 2 ^ 64)%Z /\ split to_small_plain 1 v = [p].
Proof.
  intros p H. exists p. split; [lia|]. cbn [split]. unfold to_small_plain, trunc. rewrite (Z.mod_small p (2 ^ 64)), Z.mod_small by lia. reflexivity.
Qed.

(** ** HashChallenger *)
Section HashInstance.
  Context {F : Type}.
  Variables (hash : list F -> list F) (N : nat).
  Hypothesis hash_length : forall l, length (hash l) = N.
  Hypothesis N_pos : 1 <= N.

  Notation obs := (@hash_observe F).
  Notation smp := (hash_sample hash).
  Notation str := (stream hash (@rev F)).

  Lemma hash_observe_many : forall xs c, run obs smp (map Observe xs) c = Some ([], mk_hash (hash_input c ++ xs) (match xs with [] => hash_output c | _ => [] end)).
  Proof.
    induction xs as [|x xs IH]; intros c; [cbn; rewrite app_nil_r; destruct c; reflexivity|]. cbn [map run]. unfold hash_observe at 1. rewrite IH. cbn [hash_input hash_output]. rewrite <- app_assoc. cbn [app]. destruct xs; reflexivity.
  Qed.
  Lemma hash_stream_more : forall k s, length s = N -> firstn k (str k s) = firstn k (str (S k) s).
  Proof.
    induction k as [|k IH]; intros s L; [reflexivity|]. cbn [stream]. apply firstn_cong. rewrite rev_length, L. apply (firstn_less _ k); [lia|]. apply (IH (hash s)). auto.
  Qed.
  Lemma hash_sample_many : forall k s o, length o <= N -> exists o', length o' <= N /\
    run obs smp (repeat Sample k) (mk_hash s o) = Some (firstn k (rev o ++ str k (hash s)), mk_hash (iterate hash ((k + (N - length o) - 1) / N) s) o').
  Proof.
    induction k as [|k IH]; intros s o HN.
    - exists o. split; [exact HN|]. cbn [repeat run firstn]. replace ((0 + (N - length o) - 1) / N) with 0; [reflexivity|]. symmetry. apply Nat.div_small. lia.
    - cbn [repeat run]. unfold hash_sample at 1. cbn [hash_output hash_input]. destruct o as [|a o].
      + cbn [length Nat.eqb hash_output hash_input]. destruct (pop_back_rev (hash s)) as (y & r & Ep & Er & El); [intros Z; specialize (hash_length s); rewrite Z in hash_length; cbn in hash_length; lia|].
        rewrite Ep. rewrite hash_length in El. destruct (IH (hash s) r) as (o' & Ho & E); [lia|]. rewrite E. exists o'. split; [exact Ho|]. apply f_equal, (f_equal2 pair).
        * cbn [rev app]. change (str (S k) (hash s)) with (rev (hash s) ++ str k (hash (hash s))). rewrite Er. reflexivity.
        * f_equal. replace (N - length r) with 1 by lia. replace (k + 1 - 1) with k by lia. replace (S k + (N - 0) - 1) with (k + N) by lia. rewrite ceil_step by exact N_pos. reflexivity.
      + cbn [length Nat.eqb hash_output hash_input]. destruct (pop_back_rev (a :: o)) as (y & r & Ep & Er & El); [discriminate|].
        rewrite Ep. cbn [length] in *. destruct (IH s r) as (o' & Ho & E); [lia|]. rewrite E. exists o'. split; [exact Ho|]. apply f_equal, (f_equal2 pair).
        * rewrite Er. cbn [app firstn]. f_equal. apply firstn_cong. apply (firstn_less _ k); [lia|]. apply hash_stream_more. auto.
        * f_equal. f_equal. f_equal. lia.
  Qed.
  Lemma hash_rounds : forall rounds c, Forall (fun r => fst r <> [] /\ 1 <= snd r) rounds ->
    exists c', run obs smp (ops_of rounds) c = Some (challenges (fun s xs => hash (s ++ xs)) hash (@rev F) N (hash_input c) rounds, c').
  Proof.
    induction rounds as [|[xs k] rounds IH]; intros c HF; [exists c; reflexivity|]. inversion HF as [|? ? [H1 H2] HF']; subst. cbn [fst snd] in *.
    unfold ops_of. cbn [map concat fst snd]. rewrite !run_app, hash_observe_many. set (s := hash_input c ++ xs).
    replace (match xs with [] => hash_output c | _ => [] end) with (@nil F) by (destruct xs; [now elim H1|reflexivity]).
    destruct (hash_sample_many k s []) as (o' & Ho & E); [cbn; lia|]. rewrite E. cbn [app rev].
    destruct (IH (mk_hash (iterate hash ((k + (N - length (@nil F)) - 1) / N) s) o') HF') as (c2 & E2). unfold ops_of in E2. rewrite E2. exists c2. apply f_equal, (f_equal2 pair); [|reflexivity]. cbn [challenges]. f_equal. cbn [hash_input length].
    replace (k + (N - 0) - 1) with ((k - 1) + N) by lia. rewrite ceil_step by exact N_pos. reflexivity.
  Qed.
End HashInstance.

Lemma duplex_check_total : forall {F : Type} (perm : list F -> list F) (R W : nat) (to_u32 : F -> Z) (bits : Z) (c : duplex F F) (w : F),
  (forall l, length l = W -> length (perm l) = W) -> 1 <= R -> R <= W -> duplex_valid R W c ->
  exists b c', check_witness (duplex_observe perm R W) (duplex_sample perm W) to_u32 bits c w = Some (b, c').
Proof.
  intros F perm R W to_u32 bits c w HP H1 H2 Hc. destruct (duplex_run_valid perm R W HP H1 H2 [Observe w; Sample] c Hc) as (ys & c' & E & _). cbn [run] in E.
  unfold check_witness, sample_bits. destruct (duplex_observe perm R W c w) as [c1|]; [|discriminate]. destruct (duplex_sample perm W c1) as [[x c2]|]; [|discriminate]. eauto.
Qed.
