From Coq Require Import ZArith List Bool Lia Arith.
From Verif Require Import BigIntModel PrimeFieldModel BufferModel BufferSpec BufferProof RngModel RngSpec RngProof.
Import ListNotations.
Open Scope Z_scope.

(** ** The ChaCha20 stream *)
Lemma block_input_next key k : 0 <= k ->
  cc_input (cc_update (fun l => l) (CC 0 (chacha_block_input key k) [])) = chacha_block_input key (k + 1).
Proof.
  intros Hk. unfold cc_update, chacha_block_input, u32. cbn -[Z.modulo Z.div Z.pow Z.add Z.eqb le_word].
  rewrite Zplus_mod_idemp_l.
  pose proof (Z.div_mod k (2 ^ 32) ltac:(lia)) as Dk. pose proof (Z.mod_pos_bound k (2 ^ 32) ltac:(lia)) as Bk.
  pose proof (Z.div_mod (k + 1) (2 ^ 32) ltac:(lia)) as Dk1. pose proof (Z.mod_pos_bound (k + 1) (2 ^ 32) ltac:(lia)) as Bk1.
  change (2 ^ 32) with 4294967296 in *.
  destruct (Z.eqb_spec ((k + 1) mod 4294967296) 0) as [E|E]; cbn -[Z.modulo Z.div Z.pow Z.add Z.eqb le_word].
  - rewrite Zplus_mod_idemp_l. do 13 f_equal.
    assert (X : k / 4294967296 + 1 = (k + 1) / 4294967296) by lia. rewrite X. reflexivity.
  - do 13 f_equal. assert (X : k / 4294967296 = (k + 1) / 4294967296) by lia. rewrite X. reflexivity.
Qed.
Lemma cc_update_input core core' s s' : cc_input s = cc_input s' -> cc_input (cc_update core s) = cc_input (cc_update core' s').
Proof. intros E. unfold cc_update. rewrite E. reflexivity. Qed.

Lemma cc_next_full core s : cc_index s = 16 -> cc_next core s =
  Some (word_at (core (cc_input s)) 0, CC 1 (cc_input (cc_update core s)) (core (cc_input s))).
Proof. intros E. unfold cc_next. rewrite E. reflexivity. Qed.
Lemma cc_next_mid core s : 0 <= cc_index s < 16 -> cc_next core s =
  Some (word_at (cc_output s) (Z.to_nat (cc_index s)), CC (cc_index s + 1) (cc_input s) (cc_output s)).
Proof.
  intros E. unfold cc_next, cc_get, max_index. change (64 / 4) with 16.
  destruct (Z.eqb_spec (cc_index s) 16); [lia|]. destruct (Z.ltb_spec (cc_index s) 16); [|lia].
  unfold trunc. rewrite Z.mod_small by lia. reflexivity.
Qed.

Section stream.
  Variable core : list Z -> list Z.
  Hypothesis Hcore : block_function core.
  Variables k1 k2 out0 : list Z.
  Variable n0 : nat.
  (** The key of a block: blocks generated before the change use the first. *)
  Definition key_of (b : nat) : list Z := if (b <? (n0 + 15) / 16)%nat then k1 else k2.
  Definition blk (b : nat) : list Z := core (chacha_block_input (key_of b) (Z.of_nat b)).
  Definition st (n : nat) : cc :=
    let q := ((n + 15) / 16)%nat in
    CC (Z.of_nat (n + 16 - 16 * q)) (chacha_block_input k2 (Z.of_nat q))
       (match q with O => out0 | S q' => blk q' end).
  Lemma st_next n : (n0 <= n)%nat ->
    cc_next core (st n) = Some (le_word (blk (n / 16)) (n mod 16), st (S n)).
  Proof.
    intros Hn. set (a := (n / 16)%nat). set (r := (n mod 16)%nat).
    assert (En : n = (16 * a + r)%nat) by (apply Nat.div_mod; lia).
    assert (Hr : (r < 16)%nat) by (apply Nat.mod_upper_bound; lia).
    clearbody a r.
    assert (Eq1 : ((S n + 15) / 16 = a + 1)%nat).
    { symmetry. apply (Nat.div_unique _ 16 _ r); lia. }
    destruct (Nat.eq_dec r 0) as [->|Hr0].
    - assert (Eq : ((n + 15) / 16 = a)%nat) by (symmetry; apply (Nat.div_unique _ 16 _ 15); lia).
      assert (Ek : key_of a = k2).
      { unfold key_of. destruct (Nat.ltb_spec a ((n0 + 15) / 16)) as [L|L]; [|reflexivity].
        assert ((n0 + 15) / 16 <= (n + 15) / 16)%nat by (apply Nat.div_le_mono; lia). lia. }
      assert (Ei : cc_input (st n) = chacha_block_input k2 (Z.of_nat a)) by (unfold st; cbn [cc_input]; rewrite Eq; reflexivity).
      rewrite cc_next_full by (unfold st; cbn [cc_index]; rewrite Eq; lia).
      rewrite (cc_update_input core (fun l => l) _ (CC 0 (chacha_block_input k2 (Z.of_nat a)) [])) by exact Ei.
      rewrite block_input_next by lia. rewrite Ei.
      rewrite word_at_cons by (rewrite (proj1 (Hcore _)); lia).
      unfold st. rewrite Eq1. replace (S n + 16 - 16 * (a + 1))%nat with 1%nat by lia.
      replace (Z.of_nat a + 1) with (Z.of_nat (a + 1)) by lia. replace (a + 1)%nat with (S a) by lia.
      unfold blk. rewrite Ek. reflexivity.
    - assert (Eq : ((n + 15) / 16 = S a)%nat) by (symmetry; apply (Nat.div_unique _ 16 _ (r - 1)); lia).
      assert (Es : st n = CC (Z.of_nat r) (chacha_block_input k2 (Z.of_nat (S a))) (blk a)).
      { unfold st. rewrite Eq. f_equal. lia. }
      rewrite Es. rewrite cc_next_mid by (cbn [cc_index]; lia). cbn [cc_index cc_output cc_input]. rewrite Nat2Z.id.
      rewrite word_at_cons by (unfold blk; rewrite (proj1 (Hcore _)); lia).
      f_equal. f_equal. unfold st. rewrite Eq1. replace (a + 1)%nat with (S a) by lia. f_equal. lia.
  Qed.
  Lemma st_draw m n : (n0 <= n)%nat ->
    draw (cc_next core) m (st n) = Some (map (fun j => le_word (blk (j / 16)) (j mod 16)) (seq n m), st (n + m)).
  Proof.
    revert n. induction m as [|m IH]; intros n Hn; cbn [draw seq map].
    - rewrite Nat.add_0_r. reflexivity.
    - rewrite st_next by exact Hn. rewrite IH by lia. rewrite Nat.add_succ_comm. reflexivity.
  Qed.
End stream.

Lemma list32 {A} (l : list A) : length l = 32%nat -> exists a b, l = a ++ b /\ length a = 16%nat /\ length b = 16%nat.
Proof.
  intros L. exists (firstn 16 l), (skipn 16 l). split; [symmetry; apply firstn_skipn|].
  rewrite firstn_length, skipn_length. lia.
Qed.
Lemma cc_set_seed_input key s : length key = 32%nat -> length (cc_input s) = 16%nat ->
  cc_set_seed key s = (true, CC (cc_index s) (firstn 4 (cc_input s) ++ map (le_word key) (seq 0 8) ++ skipn 12 (cc_input s)) (cc_output s)).
Proof.
  intros L Li. unfold cc_set_seed. rewrite L. cbn [Nat.eqb negb]. f_equal. f_equal.
  destruct (list16 _ Li) as (a & b & c & d & e & f & g & h & i & j & k & m & n & o & p & q & ->).
  cbn [seq fold_left map]. rewrite !word_at_cons by lia. reflexivity.
Qed.
Lemma cc_new_eq ji jo key : length ji = 16%nat -> byte_string 32 key ->
  exists s, cc_set_seed key (cc_new ji jo) = (true, s) /\ s = CC 16 (chacha_block_input key 0) jo.
Proof.
  intros Lj [Lk _]. destruct (list16 _ Lj) as (a & b & c & d & e & f & g & h & i & j & k & m & n & o & p & q & ->).
  eexists. split; [|reflexivity]. rewrite cc_set_seed_input; [reflexivity|exact Lk|reflexivity].
Qed.
Lemma cc_new_default ji jo : length ji = 16%nat -> cc_new ji jo = CC 16 (chacha_block_input (repeat 0 32) 0) jo.
Proof.
  intros Lj. destruct (list16 _ Lj) as (a & b & c & d & e & f & g & h & i & j & k & m & n & o & p & q & ->). reflexivity.
Qed.
Lemma st_start core key jo : st core key key jo 0 0 = CC 16 (chacha_block_input key 0) jo.
Proof. reflexivity. Qed.
Lemma key_of_same key n0 b : key_of key key n0 b = key.
Proof. unfold key_of. destruct (b <? _)%nat; reflexivity. Qed.
Lemma cc_reseed core k1 k2 jo n0 : byte_string 32 k2 ->
  cc_set_seed k2 (st core k1 k1 jo 0 n0) = (true, st core k1 k2 jo n0 n0).
Proof.
  intros [Lk _]. rewrite cc_set_seed_input; [|exact Lk|reflexivity].
  unfold st. cbn [cc_index cc_input cc_output]. f_equal. f_equal.
  destruct ((n0 + 15) / 16)%nat as [|q] eqn:E; [reflexivity|].
  unfold blk. rewrite key_of_same. unfold key_of. rewrite E. destruct (Nat.ltb_spec q (S q)); [reflexivity|lia].
Qed.

Lemma chacha_stream : forall core, block_function core -> forall ji jo key, length ji = 16%nat -> byte_string 32 key ->
  exists s, cc_set_seed key (cc_new ji jo) = (true, s) /\
  forall n, exists s', draw (cc_next core) n s = Some (map (chacha_word core key) (seq 0 n), s').
Proof.
  intros core Hc ji jo key Lj Hk. destruct (cc_new_eq ji jo key Lj Hk) as (s & E & Es). exists s. split; [exact E|].
  intros n. rewrite Es, <- (st_start core). rewrite st_draw by (auto; lia). eexists. reflexivity.
Qed.
Lemma chacha_default : forall core, block_function core -> forall ji jo, length ji = 16%nat ->
  forall n, exists s', draw (cc_next core) n (cc_new ji jo) = Some (map (chacha_word core (repeat 0 32)) (seq 0 n), s').
Proof.
  intros core Hc ji jo Lj n. rewrite cc_new_default by exact Lj. rewrite <- (st_start core). rewrite st_draw by (auto; lia).
  eexists. reflexivity.
Qed.
Lemma chacha_reseed : forall core, block_function core -> forall ji jo k1 k2 n m, length ji = 16%nat ->
  byte_string 32 k1 -> byte_string 32 k2 -> exists s1 l1 s2 s3 s4,
  cc_set_seed k1 (cc_new ji jo) = (true, s1) /\ draw (cc_next core) n s1 = Some (l1, s2) /\
  cc_set_seed k2 s2 = (true, s3) /\
  draw (cc_next core) m s3 =
    Some (map (fun i => chacha_word core (if (i / 16 <? (n + 15) / 16)%nat then k1 else k2) i) (seq n m), s4).
Proof.
  intros core Hc ji jo k1 k2 n m Lj H1 H2. destruct (cc_new_eq ji jo k1 Lj H1) as (s & E & Es).
  exists s. eexists. exists (st core k1 k1 jo 0 n). exists (st core k1 k2 jo n n). eexists.
  split; [exact E|]. split; [rewrite Es, <- (st_start core); apply (st_draw core Hc); lia|].
  split; [apply cc_reseed, H2|]. rewrite st_draw by (auto; lia). reflexivity.
Qed.
Lemma chacha_inputs_distinct : forall key1 key2 k1 k2, byte_string 32 key1 -> byte_string 32 key2 ->
  0 <= k1 < 2 ^ 64 -> 0 <= k2 < 2 ^ 64 ->
  chacha_block_input key1 k1 = chacha_block_input key2 k2 -> k1 = k2 /\ map (le_word key1) (seq 0 8) = map (le_word key2) (seq 0 8).
Proof.
  intros key1 key2 k1 k2 H1 H2 B1 B2 E. unfold chacha_block_input in E.
  apply app_inv_head in E.
  assert (L : forall k : list Z, length (map (le_word k) (seq 0 8)) = 8%nat) by (intros; rewrite map_length, seq_length; reflexivity).
  pose proof (app_tail_eq _ _ _ _ (eq_trans (L key1) (eq_sym (L key2))) E) as T.
  split.
  - injection T as T1 T2. change (Z.pow_pos 2 32) with (2 ^ 32) in *. assert (D1 : k1 / 2 ^ 32 < 2 ^ 32) by (apply Z.div_lt_upper_bound; lia).
    assert (D2 : k2 / 2 ^ 32 < 2 ^ 32) by (apply Z.div_lt_upper_bound; lia).
    assert (0 <= k1 / 2 ^ 32) by (apply Z.div_pos; lia). assert (0 <= k2 / 2 ^ 32) by (apply Z.div_pos; lia).
    rewrite (Z.mod_small (k1 / _)), (Z.mod_small (k2 / _)) in T2 by lia.
    rewrite (Z.div_mod k1 (2 ^ 32)), (Z.div_mod k2 (2 ^ 32)) by lia. rewrite T1, T2. reflexivity.
  - rewrite T in E. apply app_inv_tail in E. exact E.
Qed.

(** Any generator whose index is at most 16 is defined for ever; a larger one is not. *)
Lemma cc_next_defined core s : 0 <= cc_index s <= 16 -> exists v s', cc_next core s = Some (v, s') /\ 0 <= cc_index s' <= 16.
Proof.
  intros H. unfold cc_next, cc_get, max_index. change (64 / 4) with 16.
  destruct (Z.eqb_spec (cc_index s) 16) as [E|E]; cbn [cc_index cc_input cc_output].
  - eexists. eexists. split; [reflexivity|]. cbn. lia.
  - destruct (Z.ltb_spec (cc_index s) 16); [|lia]. eexists. eexists. split; [reflexivity|]. cbn [cc_index].
    unfold trunc. rewrite Z.mod_small by lia. lia.
Qed.
Lemma cc_draw_defined core n : forall s, 0 <= cc_index s <= 16 -> exists l s', draw (cc_next core) n s = Some (l, s').
Proof.
  induction n as [|n IH]; intros s H; cbn [draw]; [eauto|].
  destruct (cc_next_defined core s H) as (v & s1 & -> & H1). destruct (IH s1 H1) as (l & s2 & ->). eauto.
Qed.
Lemma cc_next_undefined core s : 16 < cc_index s -> cc_next core s = None.
Proof.
  intros H. unfold cc_next, cc_get, max_index. change (64 / 4) with 16.
  destruct (Z.eqb_spec (cc_index s) 16); [lia|]. destruct (Z.ltb_spec (cc_index s) 16); [lia|reflexivity].
Qed.
