(** Proofs about Pow, PowWithTable, successive powers, batch inversion and linear combinations. *)
From Coq Require Import ZArith List Bool Lia Permutation Arith Ring Field.
From Coq Require Import ZifyBool ZifyNat.
From Verif Require Import BigIntModel BigIntSpec BigIntProof BigIntProof2 BitsModel BitsSpec BitsProof.
From Verif Require Import ParallelizeModel ParallelizeSpec ParallelizeProof ParallelizeExtra.
From Verif Require Import SemigroupModel SemigroupSpec Field.
Import ListNotations.
Open Scope Z_scope.

Lemma NoDup_map_in {A B} (f : A -> B) : forall l, NoDup l ->
  (forall a b, In a l -> In b l -> f a = f b -> a = b) -> NoDup (map f l).
Proof.
  induction 1 as [|x l Hx HN IH]; intros Hf; [constructor|]. cbn. constructor.
  - intros Hin. apply in_map_iff in Hin. destruct Hin as (y & E & Hy). apply Hx.
    rewrite <- (Hf y x); auto; cbn; auto.
  - apply IH. intros. apply Hf; cbn; auto.
Qed.

Lemma nth_error_ext' {A} : forall l m : list A, (forall i, nth_error l i = nth_error m i) -> l = m.
Proof.
  induction l as [|a l IH]; destruct m as [|b m]; intros H; auto.
  - specialize (H 0%nat). discriminate.
  - specialize (H 0%nat). discriminate.
  - pose proof (H 0%nat) as H0. cbn in H0. injection H0 as ->. f_equal. apply IH. intros i. apply (H (S i)).
Qed.

Section Pow.
  Context {G : Type}.
  Variables (one : G) (mul : G -> G -> G) (sq : G -> G).
  Hypothesis HM : monoid one mul.
  Hypothesis Hsq : forall x, sq x = mul x x.
  Notation times := (times one mul).

  Lemma times_add n m g : times (n + m) g = mul (times n g) (times m g).
  Proof.
    induction n as [|n IH]; cbn [times Nat.add]; [symmetry; apply (m_one_l _ _ HM)|].
    cbn. rewrite IH. apply (m_assoc _ _ HM).
  Qed.
  Lemma times_1 g : times 1 g = g. Proof. cbn. apply (m_one_r _ _ HM). Qed.
  Lemma times_S_r n g : mul (times n g) g = times (S n) g.
  Proof. rewrite <- (times_1 g) at 2. rewrite <- times_add. f_equal. lia. Qed.
  Lemma times_mul n m g : times n (times m g) = times (n * m) g.
  Proof. induction n as [|n IH]; cbn; [reflexivity|]. rewrite IH, times_add. reflexivity. Qed.

  (** Value of a big-endian bit list. *)
  Definition be_val (l : list bool) : Z := fold_left (fun v (b : bool) => 2 * v + (if b then 1 else 0)) l 0.
  Lemma be_val_acc l : forall v, fold_left (fun v (b : bool) => 2 * v + (if b then 1 else 0)) l v =
    v * 2 ^ Z.of_nat (length l) + be_val l.
  Proof.
    unfold be_val. induction l as [|b l IH]; intros v; [cbn; lia|]. cbn [fold_left length].
    rewrite IH, (IH (2 * 0 + _)). rewrite pow2_S. lia.
  Qed.
  Lemma be_val_nonneg l : 0 <= be_val l.
  Proof.
    unfold be_val. assert (G0 : forall v, 0 <= v -> 0 <= fold_left (fun v (b : bool) => 2 * v + (if b then 1 else 0)) l v).
    { induction l as [|b l IH]; intros v Hv; [exact Hv|]. cbn [fold_left]. apply IH. destruct b; lia. }
    apply G0. lia.
  Qed.
  Lemma be_val_app l m : be_val (l ++ m) = be_val l * 2 ^ Z.of_nat (length m) + be_val m.
  Proof. unfold be_val at 1. rewrite fold_left_app. fold (be_val l). apply be_val_acc. Qed.
  Lemma be_val_rev l : be_val (rev l) = bits_val l.
  Proof.
    induction l as [|b l IH]; [reflexivity|]. cbn [rev bits_val]. rewrite be_val_app, IH. change (2 ^ Z.of_nat (length [b])) with 2. unfold be_val. cbn [fold_left]. destruct b; lia.
  Qed.
  Lemma skip_leading_val l : be_val (skip_leading l) = be_val l.
  Proof. induction l as [|[|] l IH]; cbn [skip_leading]; auto. Qed.

  Lemma bits_be_val n e : limbs64 n e -> be_val (bits_be_skipped e) = val64 e.
  Proof.
    intros He. unfold bits_be_skipped. rewrite skip_leading_val, map_rev, be_val_rev.
    rewrite (map_ext _ (fun i => Z.testbit (val64 e) (Z.of_nat i))) by (intros; apply (bi_test_bit_val n); auto).
    pose proof (val_bound 64 n e ltac:(lia) He) as B.
    rewrite (limbs_length _ _ _ He). rewrite bits_val_testbits by lia.
    change (2 ^ Z.of_nat 0) with 1. rewrite Z.div_1_r. apply Z.mod_small.
    replace (Z.of_nat (64 * n)) with (64 * Z.of_nat n) by lia. exact B.
  Qed.

  Lemma pow_fold g : forall bits n,
    fold_left (fun ret (b : bool) => let ret := sq ret in if b then mul ret g else ret) bits (times n g) =
    times (Z.to_nat (fold_left (fun v (b : bool) => 2 * v + (if b then 1 else 0)) bits (Z.of_nat n))) g.
  Proof.
    induction bits as [|b bits IH]; intros n; cbn [fold_left]; [rewrite Nat2Z.id; reflexivity|].
    rewrite Hsq, <- times_add. cbv zeta. destruct b.
    - rewrite times_S_r, IH. do 3 f_equal. lia.
    - rewrite IH. do 3 f_equal. lia.
  Qed.
  Lemma do_pow_spec n e g : limbs64 n e -> do_pow one mul sq e g = times (Z.to_nat (val64 e)) g.
  Proof.
    intros He. unfold do_pow. change one with (times 0 g) at 1. rewrite pow_fold. change (Z.of_nat 0) with 0.
    fold (be_val (bits_be_skipped e)). rewrite (bits_be_val n) by auto. reflexivity.
  Qed.
  Lemma do_pow_word x g : 0 <= x < 2 ^ 64 -> do_pow one mul sq [x] g = times (Z.to_nat x) g.
  Proof.
    intros Hx. rewrite (do_pow_spec 1).
    - cbn [val]. do 2 f_equal. lia.
    - split; [reflexivity|]. constructor; [exact Hx|constructor].
  Qed.
  Lemma const_pow_spec p g : 0 <= p < 2 ^ 32 -> const_pow one mul sq p g = times (Z.to_nat p) g.
  Proof.
    intros Hp. assert (E2 : sq g = times 2 g) by (rewrite Hsq; cbn; rewrite (m_one_r _ _ HM); reflexivity).
    assert (D : forall n, sq (times n g) = times (n + n) g) by (intros; rewrite Hsq, times_add; reflexivity).
    destruct (Z_lt_le_dec p 8) as [L|G8].
    - assert (C : p = 0 \/ p = 1 \/ p = 2 \/ p = 3 \/ p = 4 \/ p = 5 \/ p = 6 \/ p = 7) by lia.
      destruct C as [->|[->|[->|[->|[->|[->|[->| ->]]]]]]]; cbn [const_pow]; cbv zeta; rewrite ?E2, ?D, ?times_S_r, <- ?times_add, ?times_S_r; try reflexivity.
      symmetry. apply times_1.
    - assert (Ec : const_pow one mul sq p g = do_pow one mul sq [p] g).
      { destruct p as [|p|p]; try lia. do 3 (destruct p as [p|p|]; try lia; try reflexivity). }
      rewrite Ec. apply do_pow_word. lia.
  Qed.

  Lemma exp_pow_of_two_spec k g : exp_pow_of_two sq k g = times (2 ^ k) g.
  Proof.
    unfold exp_pow_of_two. induction k as [|k IH]; [symmetry; apply times_1|].
    cbn [Nat.iter]. change (Nat.iter (S k) sq g) with (sq (Nat.iter k sq g)). rewrite IH, Hsq, <- times_add. f_equal. cbn. lia.
  Qed.

  (** PowWithTable *)
  Lemma le_end_spec n e : limbs64 n e -> forall i, (forall j, (i < j)%nat -> Z.testbit (val64 e) (Z.of_nat j) = false) ->
    (forall j, (le_end e i <= j)%nat -> Z.testbit (val64 e) (Z.of_nat j) = false) /\
    (le_end e i = O \/ Z.testbit (val64 e) (Z.of_nat (le_end e i - 1)) = true).
  Proof.
    intros He. induction i as [|i IH]; intros Hhi.
    - cbn [le_end]. rewrite (bi_test_bit_val n) by auto. destruct (Z.testbit (val64 e) (Z.of_nat 0)) eqn:E.
      + split; [intros j Hj; apply Hhi; lia|]. right. exact E.
      + split; [|left; reflexivity]. intros j Hj. destruct j; [exact E|apply Hhi; lia].
    - cbn [le_end]. rewrite (bi_test_bit_val n) by auto. destruct (Z.testbit (val64 e) (Z.of_nat (S i))) eqn:E.
      + split; [intros j Hj; apply Hhi; lia|]. right. replace (S (S i) - 1)%nat with (S i) by lia. exact E.
      + apply IH. intros j Hj. destruct (Nat.eq_dec j (S i)) as [->|]; [exact E|apply Hhi; lia].
  Qed.

  Lemma nonneg_testbit_lt v k : 0 <= v -> (forall j, (k <= j)%nat -> Z.testbit v (Z.of_nat j) = false) -> v < 2 ^ Z.of_nat k.
  Proof.
    intros Hv H. destruct (Z_lt_le_dec v (2 ^ Z.of_nat k)) as [L|G0]; [exact L|exfalso].
    pose proof (pow2_pos' k). assert (Z.of_nat k <= Z.log2 v) by (apply Z.log2_le_pow2; lia).
    specialize (H (Z.to_nat (Z.log2 v)) ltac:(lia)). rewrite Z2Nat.id in H by lia.
    rewrite Z.bit_log2 in H by lia. discriminate.
  Qed.

  Lemma bits_le_val n e : limbs64 n e ->
    bits_val (bits_le_trimmed e) = val64 e /\
    (bits_le_trimmed e = [] \/ last (bits_le_trimmed e) false = true) /\
    length (bits_le_trimmed e) = le_end e (64 * length e).
  Proof.
    intros He. pose proof (val_bound 64 n e ltac:(lia) He) as B.
    destruct (le_end_spec n e He (64 * length e)) as [H1 H2].
    { intros j Hj. rewrite (limbs_length _ _ _ He) in Hj. destruct (Z.eq_dec (val64 e) 0) as [->|Hn]; [apply Z.bits_0|].
      apply Z.bits_above_log2; [lia|]. apply Z.log2_lt_pow2; [lia|].
      apply Z.lt_le_trans with (2 ^ (64 * Z.of_nat n)); [lia|]. apply Z.pow_le_mono_r; lia. }
    unfold bits_le_trimmed. set (k := le_end e (64 * length e)) in *.
    rewrite (map_ext _ (fun i => Z.testbit (val64 e) (Z.of_nat i))) by (intros; apply (bi_test_bit_val n); auto).
    split; [|split].
    - rewrite bits_val_testbits by lia. change (2 ^ Z.of_nat 0) with 1. rewrite Z.div_1_r. apply Z.mod_small.
      split; [lia|]. apply nonneg_testbit_lt; [lia|exact H1].
    - destruct H2 as [->|H2]; [left; reflexivity|]. destruct k as [|k]; [left; reflexivity|right].
      rewrite seq_S, map_app. cbn [map app plus]. rewrite last_last. replace (S k - 1)%nat with k in H2 by lia. exact H2.
    - rewrite map_length, seq_length. reflexivity.
  Qed.

  Lemma pow_table_loop_spec g table : forall bits i acc,
    (forall k, (k < length table)%nat -> nth_error table k = Some (times (2 ^ k) g)) ->
    (bits = [] \/ last bits false = true) ->
    pow_table_loop mul table bits i (times acc g) =
      if (Nat.leb (i + length bits) (length table)) || (Nat.eqb (length bits) 0)
      then Some (times (acc + 2 ^ i * Z.to_nat (bits_val bits))%nat g) else None.
  Proof.
    induction bits as [|b bits IH]; intros i acc HT HL.
    - cbn [pow_table_loop bits_val length]. rewrite orb_true_r. rewrite Nat.mul_0_r, Nat.add_0_r. reflexivity.
    - assert (HL' : bits = [] \/ last bits false = true).
      { destruct HL as [|HL]; [discriminate|]. destruct bits; [left; reflexivity|right; exact HL]. }
      pose proof (bits_val_bound bits) as B.
      cbn [pow_table_loop length]. replace (Nat.eqb (S (length bits)) 0) with false by lia. rewrite orb_false_r.
      assert (Ei : (2 ^ i * Z.to_nat (bits_val (b :: bits)) = 2 ^ i * (if b then 1 else 0) + 2 ^ (S i) * Z.to_nat (bits_val bits))%nat).
      { cbn [bits_val]. rewrite Nat.pow_succ_r'. rewrite Z2Nat.inj_add by (destruct b; lia). rewrite Z2Nat.inj_mul by lia.
        replace (Z.to_nat (if b then 1 else 0)) with (if b then 1 else 0)%nat by (destruct b; reflexivity).
        change (Z.to_nat 2) with 2%nat. ring. }
      rewrite Ei. destruct b.
      + destruct (nth_error table i) as [t|] eqn:Et.
        * assert (Hi : (i < length table)%nat) by (apply nth_error_Some; congruence).
          rewrite HT in Et by auto. injection Et as <-. rewrite <- times_add. rewrite IH by auto.
          replace (Nat.leb (S i + length bits) (length table) || Nat.eqb (length bits) 0) with (Nat.leb (i + S (length bits)) (length table)).
          { rewrite Nat.mul_1_r, Nat.add_assoc. reflexivity. }
          destruct bits; cbn [length]; [|replace (Nat.eqb _ 0) with false by lia; rewrite orb_false_r; f_equal; lia].
          replace (Nat.eqb 0 0) with true by lia. rewrite orb_true_r. lia.
        * apply nth_error_None in Et. replace (Nat.leb _ _) with false by lia. reflexivity.
      + rewrite IH by auto. destruct bits as [|b' bits].
        { destruct HL as [HL|HL]; discriminate. }
        cbn [length]. replace (Nat.eqb _ 0) with false by lia. rewrite orb_false_r, Nat.mul_0_r, Nat.add_0_l.
        replace (S i + S (length bits))%nat with (i + S (S (length bits)))%nat by lia. reflexivity.
  Qed.

  Lemma pow_with_table_spec n e g m : limbs64 n e ->
    let table := map (fun i => times (2 ^ i) g) (seq 0 m) in
    pow_with_table one mul table e =
      if val64 e <? 2 ^ Z.of_nat m then Some (times (Z.to_nat (val64 e)) g) else None.
  Proof.
    intros He. cbv zeta. unfold pow_with_table. destruct (bits_le_val n e He) as (E1 & E2 & E3).
    pose proof (fun H => pow_table_loop_spec g (map (fun i => times (2 ^ i) g) (seq 0 m)) (bits_le_trimmed e) 0 0 H E2) as P.
    cbn [SemigroupSpec.times] in P. rewrite P; clear P.
    - rewrite E1. cbn [Nat.pow Nat.add]. rewrite Nat.mul_1_l. rewrite map_length, seq_length.
      replace (Nat.leb (length (bits_le_trimmed e)) m || Nat.eqb (length (bits_le_trimmed e)) 0)
        with (val64 e <? 2 ^ Z.of_nat m); [reflexivity|].
      set (bs := bits_le_trimmed e) in *. pose proof (bits_val_bound bs) as B.
      destruct (Nat.leb (length bs) m) eqn:L; cbn [orb].
      + assert (2 ^ Z.of_nat (length bs) <= 2 ^ Z.of_nat m) by (apply Z.pow_le_mono_r; lia). lia.
      + destruct E2 as [E2|E2]; [rewrite E2 in L; cbn in L; lia|].
        replace (Nat.eqb (length bs) 0) with false by lia.
        assert (HG : 2 ^ Z.of_nat (length bs - 1) <= bits_val bs).
        { clear -E2. induction bs as [|b bs IH]; [discriminate|]. cbn [length bits_val].
          replace (S (length bs) - 1)%nat with (length bs) by lia. destruct bs as [|b' bs].
          - cbn in E2. subst b. cbn. lia.
          - change (last (b :: b' :: bs) false) with (last (b' :: bs) false) in E2. specialize (IH E2).
            cbn [length] in IH |- *. replace (S (length bs) - 1)%nat with (length bs) in IH by lia.
            rewrite pow2_S. destruct b; lia. }
        assert (2 ^ Z.of_nat m <= 2 ^ Z.of_nat (length bs - 1)) by (apply Z.pow_le_mono_r; lia). lia.
    - intros k Hk. rewrite map_length, seq_length in Hk.
      rewrite nth_error_map. rewrite (nth_error_nth' _ 0%nat) by (rewrite seq_length; lia).
      rewrite seq_nth by lia. reflexivity.
  Qed.

  (** Successive powers. *)
  Lemma fill_powers_length g : forall size pow, length (fill_powers mul g pow size) = size.
  Proof. induction size as [|size IH]; intros pow; [reflexivity|]. destruct size; [reflexivity|]. change (S (length (fill_powers mul g (mul pow g) (S size))) = S (S size)). rewrite IH. reflexivity. Qed.
  Section Comm.
  Variable is_one : G -> bool.
  Hypothesis Hone : forall x, is_one x = true <-> x = one.
  Hypothesis Hcomm : forall x y, mul x y = mul y x.

  Lemma fill_powers_spec g c : forall size k,
    fill_powers mul g (mul (times k g) c) size = map (fun j => mul c (times j g)) (seq k size).
  Proof.
    assert (Hstep : forall k, mul (mul (times k g) c) g = mul (times (S k) g) c).
    { intros k. rewrite <- times_S_r, <- !(m_assoc _ _ HM). f_equal. apply Hcomm. }
    induction size as [|size IH]; intros k; [reflexivity|]. destruct size as [|size].
    - cbn. rewrite Hcomm. reflexivity.
    - change (fill_powers mul g (mul (times k g) c) (S (S size))) with
        (mul (times k g) c :: fill_powers mul g (mul (mul (times k g) c) g) (S size)).
      rewrite Hstep, IH. cbn [seq map]. f_equal. apply Hcomm.
  Qed.

  Lemma start_pow i chunk size g c : 0 <= i -> 0 < chunk -> i * chunk + Z.of_nat size < 2 ^ 64 ->
    (let pow := do_pow one mul sq [trunc 64 (i * chunk)] g in if is_one c then pow else mul pow c) =
    mul (times (Z.to_nat (i * chunk)) g) c.
  Proof.
    intros Hi Hc Hb. assert (0 <= i * chunk) by nia. rewrite trunc_small by lia. cbv zeta. rewrite do_pow_word by lia.
    destruct (is_one c) eqn:E; [|reflexivity]. apply Hone in E. subst c. symmetry. apply (m_one_r _ _ HM).
  Qed.

  Lemma successive_powers_spec threads zero size g c :
    0 < threads -> 2 * Z.of_nat size + threads < 2 ^ 64 ->
    get_successive_powers one mul sq is_one threads zero size g c =
      Some (map (fun i => mul c (times i g)) (seq 0 size)).
  Proof.
    intros Ht Hb. unfold get_successive_powers.
    rewrite (parallelize_pointwise (fun j => mul c (times j g))); rewrite ?repeat_length; auto.
    - intros. apply fill_powers_length.
    - intros i ch s Hi Hc Hs Hl. rewrite (start_pow i ch (length s)) by lia. apply fill_powers_spec.
  Qed.
  End Comm.

  Lemma fill_muls_spec g : forall size k,
    fill_powers mul g (times k g) size = map (fun j => times j g) (seq k size).
  Proof.
    induction size as [|size IH]; intros k; [reflexivity|]. destruct size as [|size]; [reflexivity|].
    change (fill_powers mul g (times k g) (S (S size))) with
      (times k g :: fill_powers mul g (mul (times k g) g) (S size)).
    rewrite times_S_r, IH. reflexivity.
  Qed.
  Lemma successive_scalar_muls_spec threads zero size g :
    0 < threads -> 2 * Z.of_nat size + threads < 2 ^ 64 ->
    get_successive_scalar_muls one mul sq threads zero size g = Some (map (fun i => times i g) (seq 0 size)).
  Proof.
    intros Ht Hb. unfold get_successive_scalar_muls.
    rewrite (parallelize_pointwise (fun j => times j g)); rewrite ?repeat_length; auto.
    - intros. apply fill_powers_length.
    - intros i ch s Hi Hc Hs Hl. assert (0 <= i * ch) by nia. rewrite trunc_small by lia. rewrite do_pow_word by lia. apply fill_muls_spec.
  Qed.

  (** Bit-reversed powers. *)
  Section BitRev.
  Variable is_one : G -> bool.
  Hypothesis Hone : forall x, is_one x = true <-> x = one.
  Hypothesis Hcomm : forall x y, mul x y = mul y x.
  Variables (k : nat) (g c : G).
  Hypothesis Hk : (0 < k < 63)%nat.

  Definition brw (idx : nat) : nat * G := (Z.to_nat (rev_bits k (Z.of_nat idx)), mul c (times idx g)).

  Lemma bitrev_writes_spec : forall todo idx, (idx + todo <= 2 ^ k)%nat ->
    bitrev_writes mul (Z.of_nat k) g (mul (times idx g) c) (Z.of_nat idx) todo = Some (map brw (seq idx todo)).
  Proof.
    assert (Hstep : forall j, mul (mul (times j g) c) g = mul (times (S j) g) c).
    { intros j. rewrite <- times_S_r, <- !(m_assoc _ _ HM). f_equal. apply Hcomm. }
    assert (E2 : Z.of_nat (2 ^ k) = 2 ^ Z.of_nat k) by (rewrite Nat2Z.inj_pow; reflexivity).
    induction todo as [|m IH]; intros idx Hi; [reflexivity|]. cbn [bitrev_writes].
    rewrite reverse_bits_len_spec by lia. rewrite Hstep. replace (Z.of_nat idx + 1) with (Z.of_nat (S idx)) by lia.
    rewrite IH by lia. cbn [option_map seq map]. f_equal. unfold brw at 2. rewrite (Hcomm c). reflexivity.
  Qed.

  Lemma brw_nodup : forall a b, (a < 2 ^ k)%nat -> (b < 2 ^ k)%nat -> fst (brw a) = fst (brw b) -> a = b.
  Proof.
    intros a b Ha Hb E. unfold brw in E. cbn [fst] in E.
    assert (E2 : Z.of_nat (2 ^ k) = 2 ^ Z.of_nat k) by (rewrite Nat2Z.inj_pow; reflexivity).
    pose proof (rev_bits_range k (Z.of_nat a) ltac:(lia)). pose proof (rev_bits_range k (Z.of_nat b) ltac:(lia)).
    apply Nat2Z.inj. apply (rev_bits_inj k); lia.
  Qed.

  Lemma apply_writes_spec : forall (ws : list (nat * G)) ret,
    Forall (fun w => (fst w < length ret)%nat) ws ->
    exists ret', apply_writes ws ret = Some ret' /\ length ret' = length ret /\
      (NoDup (map fst ws) -> forall i x, In (i, x) ws -> nth_error ret' i = Some x) /\
      (forall i, ~ In i (map fst ws) -> nth_error ret' i = nth_error ret i).
  Proof.
    induction ws as [|[i x] ws IH]; intros ret HF.
    - exists ret. cbn. repeat split; auto. contradiction.
    - inversion HF as [|? ? Hi HF']; subst. cbn [fst] in Hi. cbn [apply_writes].
      replace (Nat.ltb i (length ret)) with true by lia.
      destruct (IH (set_nth i x ret)) as (ret' & E1 & E2 & E3 & E4).
      { rewrite set_nth_length. exact HF'. }
      exists ret'. rewrite E1. split; [reflexivity|]. rewrite E2, set_nth_length. split; [reflexivity|]. split.
      + cbn [map fst]. intros HN j y Hin. inversion HN as [|? ? Hni HN']; subst. destruct Hin as [E|Hin].
        * injection E as <- <-. rewrite E4 by exact Hni.
          destruct (nth_error ret i) as [z|] eqn:En; [eapply set_nth_same; eauto|].
          apply nth_error_None in En. lia.
        * apply E3; auto.
      + cbn [map fst]. intros j Hj. rewrite E4 by (intros Hin; apply Hj; right; exact Hin).
        apply set_nth_other. intros ->. apply Hj. left. reflexivity.
  Qed.

  Definition bitrev_list : list G :=
    map (fun j => mul c (times (Z.to_nat (rev_bits k (Z.of_nat j))) g)) (seq 0 (2 ^ k)).

  Lemma bitrev_list_from_writes ws zero : Permutation ws (map brw (seq 0 (2 ^ k))) ->
    apply_writes ws (repeat zero (2 ^ k)) = Some bitrev_list.
  Proof.
    intros HP.
    assert (E2 : Z.of_nat (2 ^ k) = 2 ^ Z.of_nat k) by (rewrite Nat2Z.inj_pow; reflexivity).
    assert (HF : Forall (fun w => (fst w < length (repeat zero (2 ^ k)))%nat) ws).
    { rewrite repeat_length. apply Forall_forall. intros w Hw. apply (Permutation_in _ HP) in Hw.
      apply in_map_iff in Hw. destruct Hw as (j & <- & Hj). apply in_seq in Hj. unfold brw. cbn [fst].
      pose proof (rev_bits_range k (Z.of_nat j) ltac:(lia)). lia. }
    assert (HN : NoDup (map fst ws)).
    { eapply Permutation_NoDup; [apply Permutation_sym, Permutation_map, HP|].
      rewrite map_map. apply NoDup_map_in; [apply seq_NoDup|].
      intros a b Ha Hb E. apply in_seq in Ha, Hb. apply brw_nodup; auto; lia. }
    destruct (apply_writes_spec ws _ HF) as (ret' & E & EL & EI & _). rewrite E. f_equal.
    rewrite repeat_length in EL. unfold bitrev_list.
    apply nth_error_ext'. intros j. destruct (Nat.ltb j (2 ^ k)) eqn:Ej.
    - rewrite nth_error_map. rewrite (nth_error_nth' (seq 0 (2 ^ k)) 0%nat) by (rewrite seq_length; lia).
      rewrite seq_nth by lia. cbn [option_map plus]. apply (EI HN).
      apply (Permutation_in _ (Permutation_sym HP)). apply in_map_iff.
      pose proof (rev_bits_range k (Z.of_nat j) ltac:(lia)) as R.
      exists (Z.to_nat (rev_bits k (Z.of_nat j))). split.
      + unfold brw. rewrite Z2Nat.id by lia. rewrite rev_bits_involutive by lia. rewrite Nat2Z.id. reflexivity.
      + apply in_seq. lia.
    - transitivity (@None G); [|symmetry]; apply nth_error_None; [lia|]. rewrite map_length, seq_length. lia.
  Qed.

  Lemma log_pow2 : checked_log2 64 (Z.of_nat (2 ^ k)) = Some (Z.of_nat k).
  Proof.
    assert (E2 : Z.of_nat (2 ^ k) = 2 ^ Z.of_nat k) by (rewrite Nat2Z.inj_pow; reflexivity).
    assert (2 ^ Z.of_nat k < 2 ^ 64) by (apply Z.pow_lt_mono_r; lia).
    pose proof (pow2_pos' k). rewrite E2. rewrite checked_log2_spec by (change (Z.of_nat 64) with 64; lia).
    replace (is_power_of_two (2 ^ Z.of_nat k)) with true. { rewrite Z.log2_pow2 by lia. reflexivity. }
    symmetry. apply is_power_of_two_spec. exists (Z.of_nat k). split; [lia|reflexivity].
  Qed.

  Lemma bitrev_serial_spec zero : get_bitrev_powers_serial mul zero (2 ^ k) g c = Some bitrev_list.
  Proof.
    unfold get_bitrev_powers_serial. rewrite log_pow2.
    pose proof (bitrev_writes_spec (2 ^ k) 0 ltac:(lia)) as E. change (Z.of_nat 0) with 0 in E.
    cbn [SemigroupSpec.times] in E. rewrite (m_one_l _ _ HM) in E. rewrite E.
    apply bitrev_list_from_writes. apply Permutation_refl.
  Qed.

  Lemma bitrev_all_writes_spec : forall calls i0 pos, 0 <= pos ->
    tiles i0 pos calls (2 ^ Z.of_nat k) ->
    bitrev_all_writes one mul sq is_one (Z.of_nat k) g c calls =
      Some (map brw (seq (Z.to_nat pos) (Z.to_nat (2 ^ Z.of_nat k - pos)))).
  Proof.
    assert (E2 : Z.of_nat (2 ^ k) = 2 ^ Z.of_nat k) by (rewrite Nat2Z.inj_pow; reflexivity).
    assert (B : 2 ^ Z.of_nat k < 2 ^ 63) by (apply Z.pow_lt_mono_r; lia).
    induction calls as [|[[i s] n] cs IH]; intros i0 pos Hp HT; cbn [tiles] in HT.
    - subst pos. rewrite Z.sub_diag. reflexivity.
    - destruct HT as (-> & -> & Hn & HT). pose proof (tiles_le _ _ _ _ HT) as Hle.
      cbn [bitrev_all_writes]. unfold bitrev_chunk_writes. cbv zeta.
      rewrite do_pow_word by lia.
      replace (if is_one c then times (Z.to_nat pos) g else mul (times (Z.to_nat pos) g) c) with (mul (times (Z.to_nat pos) g) c).
      2: { destruct (is_one c) eqn:E; [|reflexivity]. apply Hone in E. rewrite E. apply (m_one_r _ _ HM). }
      rewrite <- (Z2Nat.id pos) at 2 by lia. rewrite bitrev_writes_spec by lia.
      rewrite (IH _ (pos + n) ltac:(lia) HT). f_equal. rewrite <- map_app. f_equal.
      replace (Z.to_nat (2 ^ Z.of_nat k - pos)) with (Z.to_nat n + Z.to_nat (2 ^ Z.of_nat k - (pos + n)))%nat by lia.
      rewrite seq_app. do 2 f_equal. lia.
  Qed.

  Lemma bitrev_parallel_spec threads zero : 0 < threads < 2 ^ 63 ->
    exists ws, get_bitrev_powers_writes one mul sq is_one threads (2 ^ k) g c = Some ws /\
      forall order, Permutation order ws -> apply_writes order (repeat zero (2 ^ k)) = Some bitrev_list.
  Proof.
    intros Ht. assert (E2 : Z.of_nat (2 ^ k) = 2 ^ Z.of_nat k) by (rewrite Nat2Z.inj_pow; reflexivity).
    assert (B : 2 ^ Z.of_nat k <= 2 ^ 62) by (apply Z.pow_le_mono_r; lia).
    unfold get_bitrev_powers_writes. rewrite log_pow2.
    destruct (container_partition threads (Z.of_nat (2 ^ k)) None ltac:(lia) ltac:(lia) ltac:(lia)) as [HT _].
    rewrite E2 in HT |- *. rewrite (bitrev_all_writes_spec _ 0 0 ltac:(lia) HT).
    eexists. split; [reflexivity|]. intros order HP. apply bitrev_list_from_writes.
    rewrite Z.sub_0_r in HP. rewrite <- E2, Nat2Z.id in HP. exact HP.
  Qed.
  End BitRev.
End Pow.

(** Linear combinations. *)
Section Linear.
  Variable K : fld.
  Add Field Kf1 : (fld_theory K).
  Open Scope fld_scope.
  Variable r : K.

  Lemma lc_fold : forall (values : list K) acc,
    fold_left (fun ret v => ret * r + v) values acc =
    acc * r ^ (length values) + fsum (map (fun i => nth i values 0 * r ^ (length values - 1 - i)) (seq 0 (length values))).
  Proof.
    induction values as [|v vs IH]; intros acc; cbn [fold_left length seq map fsum]; [cbn; ring|].
    rewrite IH. cbn [nth fpow]. rewrite <- seq_shift, map_map. cbn [nth].
    replace (S (length vs) - 1 - 0)%nat with (length vs) by lia.
    rewrite (map_ext_in (fun x => nth x vs 0 * r ^ (S (length vs) - 1 - S x)) (fun i => nth i vs 0 * r ^ (length vs - 1 - i))).
    - ring.
    - intros i Hi. do 2 f_equal. lia.
  Qed.

  Lemma lc_rev (values : list K) :
    fsum (map (fun i => nth i (rev values) 0 * r ^ (length values - 1 - i)) (seq 0 (length values))) =
    fsum (map (fun i => nth i values 0 * r ^ i) (seq 0 (length values))).
  Proof.
    rewrite <- (fsum_rev _ (map (fun i => nth i values 0 * r ^ i) _)). rewrite <- map_rev. f_equal.
    apply nth_error_ext'. intros j. destruct (Nat.ltb j (length values)) eqn:E.
    - assert (HR : nth_error (rev (seq 0 (length values))) j = Some (length values - S j)%nat).
      { rewrite (nth_error_nth' _ 0%nat) by (rewrite rev_length, seq_length; lia).
        rewrite rev_nth by (rewrite seq_length; lia). rewrite seq_length, seq_nth by lia. reflexivity. }
      rewrite !nth_error_map, HR. rewrite (nth_error_nth' _ 0%nat) by (rewrite seq_length; lia).
      rewrite seq_nth by lia. cbn [option_map]. f_equal. cbn [Nat.add]. rewrite rev_nth by lia. do 2 f_equal. lia.
    - transitivity (@None K); [|symmetry]; apply nth_error_None; rewrite map_length, ?rev_length, seq_length; lia.
  Qed.
End Linear.

(** Batch inversion. *)
Section BatchInv.
  Variable K : fld.
  Add Field Kf2 : (fld_theory K).
  Open Scope fld_scope.
  Let inverse (x : K) : option K := if feqb x 0 then None else Some (finv x).
  Let is_zero (x : K) := feqb x 0.
  Let is_one (x : K) := feqb x 1.
  Variable coeff : K.
  Definition inv_of (g : K) : K := if feqb g 0 then 0 else coeff * finv g.

  Lemma first_pass_snoc : forall gs g (p : K) ps,
    bi_first_pass fmul is_zero (gs ++ [g]) p ps =
    let (ps', p') := bi_first_pass fmul is_zero gs p ps in
    if is_zero g then (ps', p') else (ps' ++ [p' * g], p' * g).
  Proof.
    induction gs as [|x gs IH]; intros g p ps; cbn [app bi_first_pass].
    - destruct (is_zero g); reflexivity.
    - destruct (is_zero x); apply IH.
  Qed.
  Lemma first_pass_last : forall gs ps p, exists qs,
    bi_first_pass fmul is_zero gs 1 [1] = (ps, p) -> ps = qs ++ [p] /\ p <> 0.
  Proof.
    induction gs as [|g gs IH] using rev_ind; intros ps p.
    - exists []. cbn. intros E. injection E as <- <-. split; [reflexivity|apply f1_neq_0].
    - rewrite first_pass_snoc. destruct (bi_first_pass fmul is_zero gs 1 [1]) as [ps' p'].
      destruct (IH ps' p') as [qs Hq]. specialize (Hq eq_refl). destruct Hq as [-> Hp'].
      destruct (is_zero g) eqn:Eg.
      + exists qs. intros E. injection E as <- <-. auto.
      + exists (qs ++ [p']). intros E. injection E as <- <-. split; [reflexivity|].
        apply fmul_neq0; auto. apply feqb_neq. exact Eg.
  Qed.

  Lemma set_nth_app {A} (x y : A) : forall l r, set_nth (length l) x (l ++ y :: r) = l ++ x :: r.
  Proof. induction l; intros; cbn; [reflexivity|]. rewrite IHl. reflexivity. Qed.

  Lemma second_pass_spec in_place : forall gs rest pre tail pinv ps p,
    bi_first_pass fmul is_zero gs 1 [1] = (ps, p) -> pinv = finv p * coeff ->
    length pre = length gs -> (in_place = true -> pre = gs) ->
    bi_second_pass 0 fmul is_zero in_place (gs ++ rest) (length gs) pinv (tl (rev ps)) (pre ++ tail) =
      Some (map inv_of gs ++ tail).
  Proof.
    induction gs as [|g gs IH] using rev_ind; intros rest pre tail pinv ps p E Ep HL Hin.
    - destruct pre; [|discriminate]. reflexivity.
    - rewrite app_length in *. cbn [length] in *. rewrite Nat.add_1_r in *. cbn [bi_second_pass].
      destruct (exists_last (l := pre)) as (pre' & y & ->); [intros ->; discriminate|].
      rewrite app_length in HL. cbn [length] in HL.
      assert (Hin' : in_place = true -> pre' = gs).
      { intros Hi. specialize (Hin Hi). apply app_inj_tail in Hin. tauto. }
      assert (Hnth : nth_error (if in_place then (pre' ++ [y]) ++ tail else (gs ++ [g]) ++ rest) (length gs) = Some g).
      { destruct in_place.
        - rewrite (Hin eq_refl). rewrite <- app_assoc, nth_error_app2, Nat.sub_diag by lia. reflexivity.
        - rewrite <- app_assoc, nth_error_app2, Nat.sub_diag by lia. reflexivity. }
      rewrite Hnth. rewrite <- (app_assoc pre'). cbn [app].
      assert (Hset : forall x, set_nth (length gs) x (pre' ++ y :: tail) = pre' ++ x :: tail).
      { intros x. replace (length gs) with (length pre') by lia. apply set_nth_app. }
      rewrite <- (app_assoc gs). cbn [app]. rewrite first_pass_snoc in E.
      destruct (bi_first_pass fmul is_zero gs 1 [1]) as [ps' p'] eqn:E'.
      destruct (first_pass_last gs ps' p') as [qs Hq]. destruct (Hq E') as [Eqs Hp'].
      rewrite map_app. cbn [map]. rewrite <- !app_assoc. cbn [app]. unfold inv_of at 2. unfold is_zero in *.
      destruct (feqb g 0) eqn:Eg.
      + rewrite Hset. injection E as <- <-. apply (IH (g :: rest) pre' (0 :: tail) pinv ps' p'); auto; lia.
      + assert (Hg : g <> 0) by (apply feqb_neq; exact Eg).
        injection E as <- <-. rewrite rev_app_distr. cbn [rev app tl]. 
        assert (Erev : rev ps' = p' :: tl (rev ps')) by (rewrite Eqs, rev_app_distr; reflexivity). rewrite Erev, Hset.
        rewrite (IH (g :: rest) pre' (pinv * p' :: tail) (pinv * g) ps' p'); auto; try lia.
        * do 3 f_equal. rewrite Ep. field. auto.
        * rewrite Ep. field. auto.
  Qed.

  Lemma do_batch_inverse_spec in_place gs inv : length gs = length inv -> (in_place = true -> inv = gs) ->
    do_batch_inverse 0 1 fmul inverse is_zero is_one in_place gs inv coeff = Some (map inv_of gs).
  Proof.
    intros HL Hin. unfold do_batch_inverse. destruct (bi_first_pass fmul is_zero gs 1 [1]) as [ps p] eqn:E.
    destruct (first_pass_last gs ps p) as [qs Hq]. destruct (Hq E) as [Eqs Hp].
    unfold inverse. rewrite (proj2 (feqb_neq _ p 0) Hp).
    pose proof (second_pass_spec in_place gs [] inv [] (if is_one coeff then finv p else finv p * coeff) ps p E) as SP.
    rewrite !app_nil_r in SP. apply SP; auto. unfold is_one. destruct (feqb coeff 1) eqn:Ec; [|reflexivity].
    apply feqb_eq in Ec. rewrite Ec. ring.
  Qed.

  Lemma batch_inverse_spec threads in_place gs inv : (0 < threads < 128)%Z -> (2 * Z.of_nat (length gs) + threads < 2 ^ 64)%Z ->
    length gs = length inv -> (in_place = true -> inv = gs) ->
    batch_inverse 0 1 fmul inverse is_zero is_one threads in_place gs inv coeff = Some (map inv_of gs).
  Proof.
    intros Ht Hb HL Hin. unfold batch_inverse. replace (Nat.eqb _ _) with true by lia. cbn [negb]. cbv zeta.
    assert (threads / 2 < 64)%Z by (apply Z.div_lt_upper_bound; lia).
    replace (64 <=? threads / 2)%Z with false by lia.
    destruct (_ <=? _)%Z; [|apply do_batch_inverse_spec; auto].
    destruct (parallelize_calls threads (Z.of_nat (length gs)) ltac:(lia) ltac:(lia) Hb) as [HT _].
    set (calls := chunk_calls _ _) in *. clearbody calls.
    destruct (pieces_concat calls 0 0 gs [] HT eq_refl) as [HC HF]. cbn [app] in HC, HF. transitivity (Some (map inv_of (concat (map (piece gs) calls)))); [|rewrite HC; reflexivity]. rewrite concat_map, map_map.
    destruct (pieces_concat calls 0 0 inv [] ltac:(rewrite <- HL; exact HT) eq_refl) as [_ HF']. cbn [app] in HF'.
    clear HT HC. revert HF HF'.
    induction calls as [|[[i s] n] cs IH]; intros HF HF'; [reflexivity|].
    cbn [map] in HF, HF'. inversion HF as [|? ? ? ? Hl HF1]. inversion HF' as [|? ? ? ? Hl' HF1'].
    cbn [map chunk_inverse all_chunks concat].
    change (slice gs (Z.to_nat s) (Z.to_nat n)) with (piece gs (i, s, n)).
    change (slice inv (Z.to_nat s) (Z.to_nat n)) with (piece inv (i, s, n)).
    rewrite do_batch_inverse_spec.
    - rewrite IH by auto. reflexivity.
    - apply Nat2Z.inj. transitivity n; [symmetry; exact Hl|exact Hl'].
    - intros Hi. rewrite (Hin Hi). reflexivity.
  Qed.
End BatchInv.
