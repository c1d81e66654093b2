(** Transforms of all columns of a matrix. *)
From Coq Require Import ZArith List Bool Lia Arith Permutation Ring Field Field_theory.
From Verif Require Import Field BigIntModel BitsModel BitsProof BitsSpec BitsExtra ParallelizeModel ParallelizeSpec ParallelizeProof ParallelizeExtra
  SemigroupModel SemigroupSpec SemigroupProof SemigroupExtra PolyModel PolySpec PolyProof PolyProof3 PolyProof4 FFTModel FFTSpec FFTProof FFTProof2 FFTProof3 FFTProof4 FFTProof5.
Import ListNotations.
Open Scope nat_scope.

Lemma nth_skipn {A} (l : list A) : forall n i, nth_error (skipn n l) i = nth_error l (n + i).
Proof. induction l as [|x l IH]; intros [|n] i; cbn [skipn plus nth_error]; try reflexivity; [destruct i; reflexivity|apply IH]. Qed.
(** ** Steps on blocks of rows *)
Lemma on_rows_tab {V} (f : list V -> option (list V)) (F G : nat -> V) n start len : start + len <= n ->
  f (tab (fun q => F (start + q)) len) = Some (tab (fun q => G (start + q)) len) ->
  on_rows start len f (tab F n) = Some (tab (fun x => if (start <=? x) && (x <? start + len) then G x else F x) n).
Proof.
  intros H E. unfold on_rows. rewrite tab_length. rewrite (proj2 (Nat.leb_le _ _) H). unfold slice.
  rewrite slice_tab by auto. rewrite <- (map_add_seq start len), map_map, E. f_equal.
  rewrite firstn_map, skipn_map. replace n with (start + (len + (n - start - len))) at 3 by lia.
  rewrite !seq_app, !map_app. cbn [plus]. f_equal; [|f_equal].
  - replace n with (start + (n - start)) by lia. rewrite seq_app, firstn_app, seq_length, Nat.sub_diag. cbn [firstn]. rewrite app_nil_r.
    rewrite firstn_all2 by (rewrite seq_length; lia). apply map_ext_in. intros x Hx. apply in_seq in Hx.
    replace (start <=? x) with false by (symmetry; apply Nat.leb_gt; lia). reflexivity.
  - rewrite <- (map_add_seq start len), map_map. apply map_ext_in. intros x Hx. apply in_seq in Hx.
    replace (start <=? start + x) with true by (symmetry; apply Nat.leb_le; lia). replace (start + x <? start + len) with true by (symmetry; apply Nat.ltb_lt; lia). reflexivity.
  - replace n with (start + len + (n - start - len)) at 1 by lia. rewrite seq_app, skipn_app, seq_length, Nat.sub_diag. cbn [plus skipn].
    rewrite skipn_all2 by (rewrite seq_length; lia). cbn [app]. apply map_ext_in. intros x Hx. apply in_seq in Hx.
    replace (x <? start + len) with false by (symmetry; apply Nat.ltb_ge; lia). rewrite andb_false_r. reflexivity.
Qed.
Lemma block_test c b x : 0 < c -> ((b * c <=? x) && (x <? b * c + c)) = (x / c =? b).
Proof.
  intros Hc. pose proof (Nat.div_mod x c ltac:(lia)) as D. pose proof (Nat.mod_upper_bound x c ltac:(lia)) as M.
  destruct (Nat.eqb_spec (x / c) b) as [<-|N].
  - apply andb_true_intro. split; [apply Nat.leb_le; lia|apply Nat.ltb_lt; lia].
  - apply andb_false_iff. destruct (Nat.lt_ge_cases x (b * c)); [left; apply Nat.leb_gt; auto|right; apply Nat.ltb_ge].
    destruct (Nat.lt_ge_cases x (b * c + c)) as [L|]; [|auto]. exfalso. apply N. symmetry. apply (Nat.div_unique x c b (x - b * c)); lia.
Qed.
Lemma blocks_run {V} c B n (step : nat -> list V -> option (list V)) (G : nat -> V) : 0 < c -> n = B * c -> forall bs (F : nat -> V),
  NoDup bs ->
  (forall b, In b bs -> b < B /\ step b (tab (fun q => F (b * c + q)) c) = Some (tab (fun q => G (b * c + q)) c)) ->
  ofold (fun m b => on_rows (b * c) (Nat.min c (n - b * c)) (step b) m) bs (tab F n) =
  Some (tab (fun x => if existsb (Nat.eqb (x / c)) bs then G x else F x) n).
Proof.
  intros Hc ->. induction bs as [|b bs IH]; intros F HN H.
  - cbn [ofold existsb]. reflexivity.
  - inversion HN as [|? ? N1 N2]; subst. destruct (H b (or_introl eq_refl)) as [Hb E]. cbn [ofold].
    assert (b * c + c <= B * c) by nia. rewrite (Nat.min_l c) by lia.
    rewrite (on_rows_tab (step b) F G (B * c) (b * c) c) by auto.
    rewrite IH; [| auto |].
    + f_equal. apply tab_ext. intros x _. rewrite block_test by auto. cbn [existsb].
      destruct (Nat.eqb_spec (x / c) b) as [Eb|]; cbn [orb]; [destruct (existsb _ bs); reflexivity|reflexivity].
    + intros b' Hb'. destruct (H b' (or_intror Hb')) as [Hlt E']. split; [auto|]. rewrite <- E'. f_equal.
      apply tab_ext. intros q Hq. rewrite block_test by auto. destruct (divmod_at c b' q Hq) as [-> _].
      destruct (Nat.eqb_spec b' b) as [->|]; [contradiction|reflexivity].
Qed.
Lemma blocks_count B c : 0 < c -> row_blocks (B * c) c = seq 0 B.
Proof.
  intros H. unfold row_blocks. f_equal. symmetry. apply (Nat.div_unique _ c B (c - 1)); lia.
Qed.
Lemma blocks_all {V} sched t c B n (step : nat -> list V -> option (list V)) (F G : nat -> V) : fair sched -> 0 < c -> n = B * c ->
  (forall b, b < B -> step b (tab (fun q => F (b * c + q)) c) = Some (tab (fun q => G (b * c + q)) c)) ->
  ofold (fun m b => on_rows (b * c) (Nat.min c (n - b * c)) (step b) m) (sched nat t (row_blocks n c)) (tab F n) = Some (tab G n).
Proof.
  intros HF Hc -> H. rewrite blocks_count by auto. pose proof (HF _ t (seq 0 B)) as P.
  rewrite (blocks_run c B (B * c) step G); auto.
  - f_equal. apply tab_ext. intros x Hx. replace (existsb _ _) with true; [reflexivity|]. symmetry. apply existsb_exists.
    exists (x / c). split; [|apply Nat.eqb_refl]. apply (Permutation_in _ P). apply in_seq. split; [apply Nat.le_0_l|]. rewrite Nat.add_0_l. apply Nat.div_lt_upper_bound; [lia|]. rewrite (Nat.mul_comm c B). lia.
  - eapply Permutation_NoDup; [exact P|]. apply seq_NoDup.
  - intros b Hb. apply (Permutation_in _ (Permutation_sym P)) in Hb. apply in_seq in Hb. split; [lia|]. apply H. lia.
Qed.

Lemma reverse_rows_tab {A} sched t k (f : nat -> A) : fair sched -> k < 64 ->
  reverse_rows sched t (tab f (2 ^ k)) = Some (tab (fun i => f (brev k i)) (2 ^ k)).
Proof.
  intros HF Hk. unfold reverse_rows. rewrite tab_length, checked_log2_pow2 by auto.
  assert (E : ofold (swap_step (Z.of_nat k)) (sched nat t (seq 1 (2 ^ k - 1))) (tab f (2 ^ k)) = Some (tab (fun i => f (brev k i)) (2 ^ k))).
  { destruct k as [|k].
    - cbn [Nat.pow Nat.sub seq]. pose proof (HF nat t []) as P. apply Permutation_nil in P. rewrite P. cbn [ofold map brev]. reflexivity.
    - apply swap_run; auto; [lia|]. intros. lia. }
  destruct (tab f (2 ^ k)) eqn:El; [|exact E].
  apply (f_equal (@length A)) in El. rewrite tab_length in El. pose proof (pow2_1 k). cbn in El. lia.
Qed.

Section Layers.
  Variable K : fld.
  Add Field Kb : (fld_theory K).
  Open Scope fld_scope.
  Variable cols : nat.
  Implicit Types (w x y : K).

  (** Row [p] of the state after [s] layers; [A i c] is the entry of row [i], column [c] of the input. *)
  Definition vpos (A : nat -> nat -> K) w k s p : list K := map (fun c => tpos K (fun i => A i c) w k s p) (seq 0 cols).

  Lemma row_bf_map (f g : nat -> K) w :
    row_bf (map f (seq 0 cols)) (map g (seq 0 cols)) w =
    (map (fun c => fst (butterfly_out_in (f c) (g c) w)) (seq 0 cols), map (fun c => snd (butterfly_out_in (f c) (g c) w)) (seq 0 cols)).
  Proof.
    unfold row_bf. generalize (seq 0 cols). intros l. f_equal; induction l; cbn [map combine fst snd]; congruence.
  Qed.
  Lemma vpos_step A w k s b j : unity K k w -> (s < k)%nat -> (j < 2 ^ s)%nat ->
    row_bf (vpos A w k s (b * (2 * 2 ^ s) + j)) (vpos A w k s (b * (2 * 2 ^ s) + j + 2 ^ s)) (w ^ (2 ^ (k - 1 - s) * j)) =
    (vpos A w k (S s) (b * (2 * 2 ^ s) + j), vpos A w k (S s) (b * (2 * 2 ^ s) + j + 2 ^ s)).
  Proof.
    intros Hw Hs Hj. unfold vpos. rewrite row_bf_map. f_equal; apply map_ext; intros c; rewrite tpos_step by auto; reflexivity.
  Qed.
  Lemma dit_count B g : (0 < g)%nat -> Nat.div (B * (2 * g) + g * 2 - 1) (g * 2) = B.
  Proof. intros H. symmetry. apply (Nat.div_unique _ (g * 2) B (g * 2 - 1)); lia. Qed.
  Lemma dit_run k n layer B g (tw : list K) rev (f h : nat -> list K) : n = (B * (2 * g))%nat -> (0 < g)%nat ->
    g = Nat.pow 2 (if rev : bool then k - 1 - layer else layer) ->
    (forall b j, (b < B)%nat -> (j < g)%nat -> exists w, nth_error tw (if rev then b else j * 2 ^ (k - 1 - layer))%nat = Some w /\
       row_bf (f (b * (2 * g) + j)%nat) (f (b * (2 * g) + j + g)%nat) w = (h (b * (2 * g) + j)%nat, h (b * (2 * g) + j + g)%nat)) ->
    run_dit_layer row_bf k layer tw rev (tab f n) = Some (tab h n).
  Proof.
    intros -> Hg Eg H. unfold run_dit_layer, dit_ops. rewrite tab_length. cbv zeta. rewrite <- Eg, dit_count by auto.
    rewrite (Nat.mul_comm g 2).
    apply (layer_run row_bf (fun A t l => l) 0 B g (fun b j => nth_error tw (if rev then b else (j * 2 ^ (k - 1 - layer))%nat)) f h); auto.
    intros A t l. apply Permutation_refl.
  Qed.

  (** The first layers, on one chunk of rows. *)
  Lemma first_layer A w k mid b0 s : unity K k w -> (s < mid)%nat -> (mid < k)%nat ->
    run_dit_layer row_bf k s (tab (fun j => w ^ j) (2 ^ (k - 1))) false (tab (fun q => vpos A w k s (b0 * 2 ^ mid + q)%nat) (2 ^ mid)) =
    Some (tab (fun q => vpos A w k (S s) (b0 * 2 ^ mid + q)%nat) (2 ^ mid)).
  Proof.
    intros Hw Hs Hm. apply (dit_run k (2 ^ mid) s (2 ^ (mid - 1 - s)) (2 ^ s)).
    - apply pow2_split. auto.
    - pose proof (pow2_1 s). lia.
    - reflexivity.
    - intros b j Hb Hj. cbv iota.
      assert (Hlt : (j * 2 ^ (k - 1 - s) < 2 ^ (k - 1))%nat).
      { replace (2 ^ (k - 1))%nat with (2 ^ s * 2 ^ (k - 1 - s))%nat by (rewrite <- Nat.pow_add_r; f_equal; lia).
        apply Nat.mul_lt_mono_pos_r; [pose proof (pow2_1 (k - 1 - s)); lia|auto]. }
      rewrite tab_nth by exact Hlt. eexists. split; [reflexivity|].
      assert (E : (b0 * 2 ^ mid + (b * (2 * 2 ^ s) + j) = (b0 * 2 ^ (mid - 1 - s) + b) * (2 * 2 ^ s) + j)%nat).
      { rewrite (pow2_split mid s) by auto. ring. }
      rewrite !Nat.add_assoc in *. rewrite !E. rewrite (Nat.mul_comm j). apply vpos_step; auto. lia.
  Qed.
  Lemma first_layers A w k mid b0 : unity K k w -> (mid < k)%nat -> forall m, (m <= mid)%nat ->
    ofold (fun s layer => run_dit_layer row_bf k layer (tab (fun j => w ^ j) (2 ^ (k - 1))) false s) (seq 0 m) (tab (fun q => vpos A w k 0 (b0 * 2 ^ mid + q)%nat) (2 ^ mid)) =
    Some (tab (fun q => vpos A w k m (b0 * 2 ^ mid + q)%nat) (2 ^ mid)).
  Proof.
    intros Hw Hm. induction m; intros Hle; [reflexivity|]. rewrite seq_S, ofold_app, IHm by lia. cbn [ofold plus].
    rewrite first_layer by (auto; lia). reflexivity.
  Qed.
  (** The last layers, on one chunk of rows in bit-reversed order. *)
  Lemma brev_low n j : (j < 2 ^ n)%nat -> brev (S n) j = (2 * brev n j)%nat /\ brev (S n) (j + 2 ^ n) = (2 * brev n j + 1)%nat.
  Proof.
    intros H. replace (S n) with (n + 1)%nat by lia. split.
    - replace j with (0 * 2 ^ n + j)%nat at 1 by lia. rewrite brev_split by auto. change (brev 1 0) with 0%nat. change (2 ^ 1)%nat with 2%nat. lia.
    - replace (j + 2 ^ n)%nat with (1 * 2 ^ n + j)%nat by lia. rewrite brev_split by auto. change (brev 1 1) with 1%nat. change (2 ^ 1)%nat with 2%nat. lia.
  Qed.
  Lemma brev_high n m b : (b < 2 ^ n)%nat -> brev (n + m) b = (brev n b * 2 ^ m)%nat.
  Proof.
    intros H. replace b with (0 * 2 ^ n + b)%nat at 1 by lia. rewrite brev_split by auto. rewrite brev_0. lia.
  Qed.
  Lemma last_layer A w k mid b0 s : unity K k w -> (mid <= s)%nat -> (s < k)%nat -> (b0 < 2 ^ mid)%nat ->
    run_dit_layer row_bf k s (skipn (b0 * 2 ^ (s - mid)) (tab (fun j => w ^ brev (k - 1) j) (2 ^ (k - 1)))) true
      (tab (fun q => vpos A w k s (brev k (b0 * 2 ^ (k - mid) + q))) (2 ^ (k - mid))) =
    Some (tab (fun q => vpos A w k (S s) (brev k (b0 * 2 ^ (k - mid) + q))) (2 ^ (k - mid))).
  Proof.
    intros Hw Hm Hs Hb0.
    assert (En : (2 ^ (k - mid) = 2 ^ (s - mid) * (2 * 2 ^ (k - 1 - s)))%nat).
    { change (2 * 2 ^ (k - 1 - s))%nat with (2 ^ S (k - 1 - s))%nat. rewrite <- Nat.pow_add_r. f_equal. lia. }
    apply (dit_run k (2 ^ (k - mid)) s (2 ^ (s - mid)) (2 ^ (k - 1 - s))); [exact En|pose proof (pow2_1 (k - 1 - s)); lia|reflexivity|].
    intros b j Hb Hj. cbv iota. set (bb := (b0 * 2 ^ (s - mid) + b)%nat).
    assert (Hbb : (bb < 2 ^ s)%nat).
    { replace (2 ^ s)%nat with (2 ^ mid * 2 ^ (s - mid))%nat by (rewrite <- Nat.pow_add_r; f_equal; lia). unfold bb. 
      apply Nat.lt_le_trans with ((b0 + 1) * 2 ^ (s - mid))%nat; [lia|]. apply Nat.mul_le_mono_r. lia. }
    assert (Hle : (2 ^ s <= 2 ^ (k - 1))%nat) by (apply Nat.pow_le_mono_r; lia).
    assert (Etw : nth_error (skipn (b0 * 2 ^ (s - mid)) (tab (fun j => w ^ brev (k - 1) j) (2 ^ (k - 1)))) b = Some (w ^ (2 ^ (k - 1 - s) * brev s bb))).
    { rewrite nth_skipn. fold bb. rewrite tab_nth by lia. do 2 f_equal. replace (k - 1)%nat with (s + (k - 1 - s))%nat at 1 by lia.
      rewrite brev_high by auto. apply Nat.mul_comm. }
    rewrite Etw. eexists. split; [reflexivity|].
    set (h := (2 ^ (k - 1 - s))%nat) in *. 
    assert (E2 : (2 ^ (k - s) = 2 * h)%nat) by (unfold h; replace (k - s)%nat with (S (k - 1 - s)) by lia; reflexivity).
    assert (P : forall q, (q < 2 ^ (k - s))%nat -> brev k (bb * 2 ^ (k - s) + q) = (brev (k - s) q * 2 ^ s + brev s bb)%nat).
    { intros q Hq. replace k with ((k - s) + s)%nat at 1 by lia. apply brev_split. auto. }
    destruct (brev_low (k - 1 - s) j Hj) as [L1 L2]. replace (S (k - 1 - s)) with (k - s)%nat in L1, L2 by lia. fold h in L2.
    assert (Q1 : (b0 * 2 ^ (k - mid) + (b * (2 * h) + j) = bb * 2 ^ (k - s) + j)%nat) by (rewrite En, E2; unfold bb; ring).
    assert (Q2 : (b0 * 2 ^ (k - mid) + (b * (2 * h) + j + h) = bb * 2 ^ (k - s) + (j + h))%nat) by (rewrite En, E2; unfold bb; ring).
    rewrite Q1, Q2, !P, L1, L2 by lia.
    replace (2 * brev (k - 1 - s) j * 2 ^ s + brev s bb)%nat with (brev (k - 1 - s) j * (2 * 2 ^ s) + brev s bb)%nat by ring.
    replace ((2 * brev (k - 1 - s) j + 1) * 2 ^ s + brev s bb)%nat with (brev (k - 1 - s) j * (2 * 2 ^ s) + brev s bb + 2 ^ s)%nat by ring.
    apply vpos_step; auto. apply brev_lt.
  Qed.
  Lemma last_layers A w k mid b0 : unity K k w -> (b0 < 2 ^ mid)%nat -> forall m, (mid + m <= k)%nat ->
    ofold (fun s layer =>
             let first_block := (b0 * Nat.pow 2 (layer - mid))%nat in
             if Nat.leb first_block (length (tab (fun j => w ^ brev (k - 1) j) (2 ^ (k - 1))))
             then run_dit_layer row_bf k layer (skipn first_block (tab (fun j => w ^ brev (k - 1) j) (2 ^ (k - 1)))) true s
             else None) (seq mid m) (tab (fun q => vpos A w k mid (brev k (b0 * 2 ^ (k - mid) + q))) (2 ^ (k - mid))) =
    Some (tab (fun q => vpos A w k (mid + m) (brev k (b0 * 2 ^ (k - mid) + q))) (2 ^ (k - mid))).
  Proof.
    intros Hw Hb0. induction m; intros Hle; [rewrite Nat.add_0_r; reflexivity|]. rewrite seq_S, ofold_app, IHm by lia. cbn [ofold]. cbv zeta.
    rewrite tab_length. rewrite (proj2 (Nat.leb_le _ _)).
    - rewrite last_layer by (auto; lia). replace (mid + S m)%nat with (S (mid + m)) by lia. reflexivity.
    - replace (mid + m - mid)%nat with m by lia. apply Nat.le_trans with (2 ^ mid * 2 ^ m)%nat; [apply Nat.mul_le_mono_r; lia|].
      rewrite <- Nat.pow_add_r. apply Nat.pow_le_mono_r; lia.
  Qed.

  Lemma pow2_check n : is_power_of_two (Z.of_nat (2 ^ n)) = true.
  Proof. apply is_power_of_two_spec. exists (Z.of_nat n). split; [lia|]. apply pow2_Z. Qed.
  Lemma half_lt k : (0 < k)%nat -> (Nat.div k 2 < k)%nat.
  Proof. intros. apply Nat.div_lt; lia. Qed.

  Lemma chunks_run sched t d A w k : fair sched -> (0 < k)%nat -> unity K k w -> d_log d = k -> d_size d = (2 ^ k)%nat ->
    run_row_chunks row_bf sched t d (tab (fun j => w ^ j) (2 ^ (k - 1))) (tab (vpos A w k 0) (2 ^ k)) = Some (tab (vpos A w k (Nat.div k 2)) (2 ^ k)).
  Proof.
    intros HF Hk Hw El Es. unfold run_row_chunks. rewrite tab_length, pow2_check, El, Es. cbv zeta. pose proof (half_lt k Hk) as Hm. set (mid := Nat.div k 2) in *.
    apply (blocks_all sched t (2 ^ mid) (2 ^ (k - mid)) (2 ^ k)
      (fun _ => ofold (fun s layer => run_dit_layer row_bf k layer (tab (fun j => w ^ j) (2 ^ (k - 1))) false s) (seq 0 mid))); auto.
    - pose proof (pow2_1 mid). lia.
    - rewrite <- Nat.pow_add_r. f_equal. lia.
    - intros b Hb. apply first_layers; auto.
  Qed.
  Lemma chunks_reversed_run sched t d A w k : fair sched -> (0 < k)%nat -> unity K k w -> d_log d = k -> d_size d = (2 ^ k)%nat ->
    run_row_chunks_reversed row_bf sched t d (tab (fun j => w ^ brev (k - 1) j) (2 ^ (k - 1))) (tab (fun i => vpos A w k (Nat.div k 2) (brev k i)) (2 ^ k)) =
    Some (tab (fun i => vpos A w k k (brev k i)) (2 ^ k)).
  Proof.
    intros HF Hk Hw El Es. unfold run_row_chunks_reversed. rewrite tab_length, pow2_check, El, Es. cbv zeta. pose proof (half_lt k Hk) as Hm. set (mid := Nat.div k 2) in *.
    apply (blocks_all sched t (2 ^ (k - mid)) (2 ^ mid) (2 ^ k)
      (fun b => ofold (fun s layer =>
             let first_block := (b * Nat.pow 2 (layer - mid))%nat in
             if Nat.leb first_block (length (tab (fun j => w ^ brev (k - 1) j) (2 ^ (k - 1))))
             then run_dit_layer row_bf k layer (skipn first_block (tab (fun j => w ^ brev (k - 1) j) (2 ^ (k - 1)))) true s
             else None) (seq mid (k - mid)))); auto.
    - pose proof (pow2_1 (k - mid)). lia.
    - rewrite <- Nat.pow_add_r. f_equal. lia.
    - intros b Hb. pose proof (last_layers A w k mid b Hw Hb (k - mid) ltac:(lia)) as E. replace (mid + (k - mid))%nat with k in E by lia. exact E.
  Qed.
  (** The three middle steps: from the bit-reversed input to the bit-reversed transform. *)
  Definition vdft (A : nat -> nat -> K) w k p : list K := map (fun c => fsum (map (fun m => A m c * w ^ (p * m)) (seq 0 (2 ^ k)))) (seq 0 cols).
  Lemma core_run sched t1 t2 t3 d A w k : fair sched -> (0 < k < 64)%nat -> unity K k w -> d_log d = k -> d_size d = (2 ^ k)%nat ->
    exists m1 m2, run_row_chunks row_bf sched t1 d (tab (fun j => w ^ j) (2 ^ (k - 1))) (tab (fun i => map (fun c => A (brev k i) c) (seq 0 cols)) (2 ^ k)) = Some m1 /\
      reverse_rows sched t2 m1 = Some m2 /\
      run_row_chunks_reversed row_bf sched t3 d (tab (fun j => w ^ brev (k - 1) j) (2 ^ (k - 1))) m2 = Some (tab (fun i => vdft A w k (brev k i)) (2 ^ k)).
  Proof.
    intros HF Hk Hw El Es. exists (tab (vpos A w k (Nat.div k 2)) (2 ^ k)), (tab (fun i => vpos A w k (Nat.div k 2) (brev k i)) (2 ^ k)). split; [|split].
    - rewrite <- (chunks_run sched t1 d A w k) by (auto; lia). f_equal. apply tab_ext. intros i _. unfold vpos. apply map_ext. intros c. rewrite tpos_0. reflexivity.
    - apply reverse_rows_tab; auto; lia.
    - rewrite (chunks_reversed_run sched t3 d A w k) by (auto; lia). f_equal. apply tab_ext. intros i _. unfold vpos, vdft. apply map_ext. intros c.
      apply tpos_k. apply brev_lt.
  Qed.
End Layers.
