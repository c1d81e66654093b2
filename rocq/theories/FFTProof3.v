(** Radix-2 transforms over domains and twiddle tables. *)
From Coq Require Import ZArith List Bool Lia Arith Permutation Ring Field Field_theory.
From Verif Require Import Field BigIntModel BitsModel BitsProof BitsSpec ParallelizeModel ParallelizeSpec ParallelizeProof ParallelizeExtra
  SemigroupModel SemigroupSpec SemigroupProof SemigroupExtra PolyModel PolySpec PolyProof PolyProof3 PolyProof4 FFTModel FFTSpec FFTProof FFTProof2.
Import ListNotations.
Open Scope nat_scope.

Lemma slice_tab {A} (f : nat -> A) n a len : a + len <= n -> firstn len (skipn a (tab f n)) = map f (seq a len).
Proof.
  intros H. rewrite skipn_map, firstn_map. f_equal.
  replace n with (a + (len + (n - a - len))) by lia. rewrite seq_app, skipn_app, seq_length, Nat.sub_diag.
  rewrite skipn_all2 by (rewrite seq_length; lia). cbn [app skipn]. rewrite seq_app, firstn_app, seq_length, Nat.sub_diag.
  rewrite firstn_all2 by (rewrite seq_length; lia). cbn [firstn]. rewrite app_nil_r. reflexivity.
Qed.

Lemma by_chunk_tab {A} (f g : nat -> A) (cb : Z -> Z -> list A -> list A) chunk n :
  (0 < chunk)%Z -> (Z.of_nat n + chunk < 2 ^ 64)%Z ->
  (forall i s, length (cb i chunk s) = length s) ->
  (forall i len, (0 <= i)%Z -> 0 < len -> (Z.of_nat len <= chunk)%Z -> Z.to_nat (i * chunk) + len <= n ->
     ((Z.of_nat len = chunk \/ Z.to_nat (i * chunk) + len = n)) ->
     cb i chunk (map f (seq (Z.to_nat (i * chunk)) len)) = map g (seq (Z.to_nat (i * chunk)) len)) ->
  parallelize_by_chunk chunk cb (tab f n) = Some (tab g n).
Proof.
  intros Hc Hb HL Hcb. unfold parallelize_by_chunk. rewrite tab_length.
  destruct (by_chunk_partition (Z.of_nat n) chunk ltac:(lia) Hc Hb) as (HT & HS & HF).
  rewrite run_calls_seq by (auto; rewrite tab_length; auto). f_equal.
  pose proof (tiles_pointwise g _ 0%Z 0%Z _ ltac:(lia) HT) as TP. rewrite Z.sub_0_r, Nat2Z.id in TP.
  change (Z.to_nat 0) with 0 in TP. rewrite <- TP. clear TP. f_equal.
  assert (Hi : Forall (fun t => (0 <= fst (fst t))%Z) (chunk_calls (Z.of_nat n) chunk)).
  { rewrite calls_eq by lia. apply Forall_map, Forall_forall. intros; cbn; lia. }
  pose proof (piece_length (tab f n) (chunk_calls (Z.of_nat n) chunk) 0%Z 0%Z ltac:(lia)) as HP. rewrite tab_length in HP. specialize (HP HT).
  assert (HE : forall i s m, In (i, s, m) (chunk_calls (Z.of_nat n) chunk) -> m = chunk \/ (s + m = Z.of_nat n)%Z).
  { intros i s m Hin. apply In_nth_error in Hin. destruct Hin as [k Hk].
    destruct (Nat.lt_ge_cases (S k) (length (chunk_calls (Z.of_nat n) chunk))) as [H|H]; [left; eapply HF; eauto|].
    right. assert (k < length (chunk_calls (Z.of_nat n) chunk)) by (apply nth_error_Some; congruence).
    destruct (nth_error_split _ _ Hk) as (l1 & l2 & E & E1). rewrite E, app_length in H. cbn [length] in H.
    destruct l2; [|cbn in H; lia]. rewrite E in HT. clear - HT. revert HT. generalize 0%Z at 1. generalize 0%Z.
    induction l1 as [|[[i' s'] m'] l1 IH]; intros z z0 HT; cbn [app tiles] in HT.
    - destruct HT as (_ & -> & _ & HT). lia.
    - destruct HT as (_ & _ & _ & HT). eapply IH. exact HT. }
  apply map_ext_in. intros [[i s] m] Hin.
  rewrite Forall_forall in HS, Hi, HP. specialize (HE _ _ _ Hin). specialize (HS _ Hin). specialize (Hi _ Hin). specialize (HP _ Hin).
  cbn [fst snd piece] in *. destruct HS as [-> Hm]. rewrite firstn_length, skipn_length, tab_length in HP.
  assert (0 <= i * chunk)%Z by nia.
  rewrite slice_tab by lia. apply Hcb; lia.
Qed.

Lemma threshold_chunk threads n thr : (0 < threads)%Z -> (0 < n) -> (2 * Z.of_nat n + threads < 2 ^ 64)%Z ->
  (0 < size_per_thread threads (Z.of_nat n) thr <= Z.of_nat n)%Z.
Proof.
  intros Ht Hn Hb.
  assert (H : (0 < size_per_thread threads (Z.of_nat n) None <= Z.of_nat n)%Z).
  { destruct (container_chunk threads (Z.of_nat n) None Ht ltac:(lia) Hb) as [[E _]|[_ E]]; [lia|exact E]. }
  destruct thr as [t|]; [|exact H]. unfold size_per_thread in *. destruct (t <? Z.of_nat n)%Z; [exact H|lia].
Qed.

Section Transforms.
  Variable K : fld.
  Add Field Kf : (fld_theory K).
  Open Scope fld_scope.
  Implicit Types (w h g : K) (a f : nat -> K).

  (** ** Scaling by powers *)
  Lemma mul_powers_tab g p f : forall len s, mul_powers g p (map f (seq s len)) = map (fun i => f i * (p * g ^ (i - s))) (seq s len).
  Proof.
    intros len. revert p. induction len; intros p s; cbn [seq map mul_powers]; [reflexivity|]. f_equal.
    - rewrite Nat.sub_diag. cbn [fpow]. ring.
    - rewrite IHlen. apply map_ext_in. intros i Hi. apply in_seq in Hi.
      replace (i - s)%nat with (S (i - S s)) by lia. cbn [fpow]. ring.
  Qed.
  Lemma mul_powers_length g : forall l (p : K), length (mul_powers g p l) = length l.
  Proof. induction l; intros; cbn [mul_powers length]; auto. Qed.
  Lemma distribute_spec threads g c f n : (0 < threads)%Z -> (2 * Z.of_nat n + threads < 2 ^ 64)%Z ->
    distribute_powers_and_mul threads (tab f n) g c = Some (tab (fun i => f i * (c * g ^ i)) n).
  Proof.
    intros Ht Hb. unfold distribute_powers_and_mul. rewrite tab_length.
    destruct n as [|n]. { cbn [seq map]. unfold parallelize_by_chunk. cbn [length Z.of_nat].
      set (ch := size_per_thread _ _ _). replace (chunk_calls 0 ch) with (@nil (Z * Z * Z)); [reflexivity|].
      assert (E : ch = 0%Z). { unfold ch, size_per_thread. replace (1024 * threads <? 0)%Z with false by lia. reflexivity. }
      rewrite E. reflexivity. }
    pose proof (threshold_chunk threads (S n) (Some (1024 * threads)%Z) Ht ltac:(lia) Hb) as Hc.
    set (ch := size_per_thread _ _ _) in *. apply by_chunk_tab; [lia|lia|intros; apply mul_powers_length|].
    intros i len Hi Hl Hlc Hn _. rewrite mul_powers_tab. apply map_ext_in. intros j Hj. apply in_seq in Hj.
    assert (0 <= i * ch)%Z by nia. rewrite trunc_small by lia. rewrite do_pow_fpow by lia.
    f_equal. replace j with (Z.to_nat (i * ch) + (j - Z.to_nat (i * ch)))%nat at 2 by lia. rewrite fpow_add. ring.
  Qed.

  (** ** Layers *)
  Lemma layer_count B (g : nat) : (0 < g)%nat -> Nat.div (B * (2 * g) + 2 * g - 1) (2 * g) = B.
  Proof.
    intros Hg. symmetry. apply (Nat.div_unique _ _ B (2 * g - 1)); lia.
  Qed.
  Lemma pow2_split k s : (s < k)%nat -> (2 ^ k = 2 ^ (k - 1 - s) * (2 * 2 ^ s))%nat.
  Proof. intros H. replace (2 * 2 ^ s)%nat with (2 ^ S s)%nat by reflexivity. rewrite <- Nat.pow_add_r. f_equal. lia. Qed.
  Lemma apply_layer sched t fn f (h' : nat -> K) roots B (g : nat) : fair sched -> (0 < g)%nat ->
    (forall b j, (b < B)%nat -> (j < g)%nat -> exists w, nth_error roots j = Some w /\
       fn (f (b * (2 * g) + j)%nat) (f (b * (2 * g) + j + g)%nat) w = (h' (b * (2 * g) + j)%nat, h' (b * (2 * g) + j + g)%nat)) ->
    apply_butterfly sched t fn (tab f (B * (2 * g))) roots g = Some (tab h' (B * (2 * g))).
  Proof.
    intros HF Hg H. unfold apply_butterfly, layer_ops. rewrite tab_length, layer_count by auto.
    apply (layer_run (R := K) fn sched t B g (fun _ j => nth_error roots j) f h'); auto.
  Qed.

  (** The tables of the twiddle cache. *)
  Definition tables_ok (k : nat) w (tables : list (list K)) : Prop :=
    forall s, (s < k)%nat -> nth_error tables s = Some (tab (fun j => w ^ (2 ^ (k - 1 - s) * j)) (2 ^ s)).
  Definition inv_tables_ok (k : nat) w (tables : list (list K)) : Prop :=
    forall s, (s < k)%nat -> nth_error tables s = Some (tab (fun j => w ^ (2 ^ s * j)) (2 ^ (k - 1 - s))).

  Lemma out_in_spec sched tables w k a : fair sched -> unity K k w -> tables_ok k w tables ->
    forall fuel s, (s <= k)%nat -> (k - s < fuel)%nat ->
    out_in_loop sched tables fuel (2 ^ s) s (tab (tpos K a w k s) (2 ^ k)) = Some (tab (tpos K a w k k) (2 ^ k)).
  Proof.
    intros HF Hw HT. induction fuel; intros s Hs Hf; [lia|]. cbn [out_in_loop]. rewrite tab_length.
    destruct (Nat.ltb_spec (2 ^ s) (2 ^ k)) as [Hl|Hl].
    - assert (s < k)%nat by (apply (Nat.pow_lt_mono_r_iff 2); auto; lia). rewrite HT by auto.
      pose proof (pow2_split k s ltac:(auto)) as E. rewrite E at 1.
      rewrite (apply_layer sched (S s) butterfly_out_in (tpos K a w k s) (tpos K a w k (S s))); auto.
      + rewrite <- E. replace (2 ^ s * 2)%nat with (2 ^ S s)%nat by (cbn [Nat.pow]; lia). apply IHfuel; lia.
      + pose proof (pow2_1 s). lia.
      + intros b j Hb Hj. rewrite tab_nth by auto. eexists. split; [reflexivity|]. apply tpos_step; auto.
    - destruct (Nat.eq_dec s k) as [->|E]; [reflexivity|]. exfalso.
      assert (2 ^ s < 2 ^ k)%nat by (apply Nat.pow_lt_mono_r; lia). lia.
  Qed.
  Lemma in_out_spec sched tables v k a : fair sched -> unity K k v -> inv_tables_ok k v tables ->
    forall fuel s, (s <= k)%nat -> (k - s < fuel)%nat ->
    in_out_loop sched tables fuel (Nat.div (2 ^ (k - s)) 2) s (tab (fpos K a v k s) (2 ^ k)) = Some (tab (fpos K a v k k) (2 ^ k)).
  Proof.
    intros HF Hw HT. induction fuel; intros s Hs Hf; [lia|]. cbn [in_out_loop].
    destruct (Nat.eq_dec s k) as [->|E].
    { rewrite Nat.sub_diag. change (Nat.div (2 ^ 0) 2) with 0%nat. reflexivity. }
    assert (Hsk : (s < k)%nat) by lia. set (gp := (2 ^ (k - 1 - s))%nat).
    assert (Eg : Nat.div (2 ^ (k - s)) 2 = gp).
    { replace (k - s)%nat with (S (k - 1 - s)) by lia. rewrite Nat.pow_succ_r', Nat.mul_comm. apply Nat.div_mul. lia. }
    rewrite Eg. pose proof (pow2_1 (k - 1 - s)). replace (Nat.ltb 0 gp) with true by (symmetry; apply Nat.ltb_lt; unfold gp; lia).
    rewrite HT by auto.
    assert (En : (2 ^ k = 2 ^ s * (2 * gp))%nat).
    { unfold gp. replace (2 * 2 ^ (k - 1 - s))%nat with (2 ^ S (k - 1 - s))%nat by reflexivity. rewrite <- Nat.pow_add_r. f_equal. lia. }
    rewrite En at 1.
    rewrite (apply_layer sched (S s) butterfly_in_out (fpos K a v k s) (fpos K a v k (S s))); auto.
    + rewrite <- En. replace (Nat.div gp 2) with (Nat.div (2 ^ (k - S s)) 2) by (unfold gp; do 2 f_equal; lia). apply IHfuel; lia.
    + intros b j Hb Hj. fold gp. rewrite tab_nth by auto. eexists. split; [reflexivity|]. apply fpos_step; auto.
  Qed.
End Transforms.
