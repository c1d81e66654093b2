(** Corollaries of the loop proofs in the form the properties and other models use. *)
From Coq Require Import ZArith List Bool Lia.
From Coq Require Import ZifyBool ZifyNat.
From Verif Require Import BigIntModel ParallelizeModel ParallelizeSpec ParallelizeProof.
Import ListNotations.
Open Scope Z_scope.

Lemma by_chunk_partition size chunk : 0 <= size -> 0 < chunk -> size + chunk < 2 ^ 64 ->
  let calls := chunk_calls size chunk in
  tiles 0 0 calls size /\
  Forall (fun t => match t with (i, start, len) => start = i * chunk /\ 0 < len <= chunk end) calls /\
  (forall k i start len, nth_error calls k = Some (i, start, len) ->
     (S k < length calls)%nat -> len = chunk).
Proof.
  intros ? ? ?. cbv zeta. split; [apply chunk_calls_tiles; lia|]. split; [apply chunk_calls_shape; lia|].
  intros k i start len Hk Hl. pose proof (chunk_calls_length size chunk ltac:(lia) ltac:(lia) ltac:(lia)) as HL.
  rewrite calls_eq in Hk by lia.
  rewrite nth_error_map in Hk. destruct (nth_error (seq _ _) k) as [k'|] eqn:E; [|discriminate].
  cbn in Hk. injection Hk as <- <- <-.
  apply nth_error_nth with (d := 0%nat) in E. 
  rewrite seq_nth in E by lia. unfold len_at. replace (Z.of_nat k' =? _) with false by lia. reflexivity.
Qed.

Lemma container_partition threads size threshold : 0 < threads -> 0 <= size -> 2 * size + threads < 2 ^ 64 ->
  let chunk := num_elements_per_thread threads size threshold in
  tiles 0 0 (chunk_calls size chunk) size /\ Z.of_nat (length (chunk_calls size chunk)) <= threads.
Proof. intros. apply parallelize_calls; auto. Qed.

Lemma container_chunk threads size threshold : 0 < threads -> 0 <= size -> 2 * size + threads < 2 ^ 64 ->
  let chunk := num_elements_per_thread threads size threshold in
  (size = 0 /\ chunk = 0) \/ (0 < size /\ 0 < chunk <= size).
Proof.
  intros Ht Hs Hb. cbv zeta. unfold num_elements_per_thread. rewrite size_per_thread_eq by lia.
  destruct (Z.eq_dec size 0) as [->|E].
  - left. split; [reflexivity|]. apply Z.div_small. lia.
  - right. split; [lia|]. split.
    + apply Z.div_str_pos. lia.
    + apply Z.div_le_upper_bound; [lia|]. nia.
Qed.

Lemma map_seq_shift {B} (g : nat -> B) a : forall n, map (fun k => g (a + k)%nat) (seq 0 n) = map g (seq a n).
Proof.
  intros n. transitivity (map g (seq (a + 0) n)); [|rewrite Nat.add_0_r; reflexivity].
  generalize 0%nat. induction n as [|n IH]; intros k; [reflexivity|].
  cbn [seq map]. f_equal. rewrite <- Nat.add_succ_r. apply IH.
Qed.

(** A callback that sets the element at global position [i * chunk_size + k] to [g] of that position. *)
Lemma tiles_pointwise {B} (g : nat -> B) : forall calls idx pos stop, 0 <= pos -> tiles idx pos calls stop ->
  concat (map (fun c => map g (seq (Z.to_nat (snd (fst c))) (Z.to_nat (snd c)))) calls) =
  map g (seq (Z.to_nat pos) (Z.to_nat (stop - pos))).
Proof.
  induction calls as [|[[i s] n] cs IH]; intros idx pos stop Hp HT; cbn [tiles] in HT.
  - subst stop. rewrite Z.sub_diag. reflexivity.
  - destruct HT as (-> & -> & Hn & HT). cbn [map concat fst snd]. pose proof (tiles_le _ _ _ _ HT).
    rewrite (IH (idx + 1) (pos + n) stop ltac:(lia) HT). rewrite <- map_app. f_equal.
    replace (Z.to_nat (stop - pos)) with (Z.to_nat n + Z.to_nat (stop - (pos + n)))%nat by lia.
    rewrite seq_app. do 2 f_equal. lia.
Qed.

Lemma piece_length {A} (l : list A) : forall calls idx pos, 0 <= pos -> tiles idx pos calls (Z.of_nat (length l)) ->
  Forall (fun c => Z.of_nat (length (piece l c)) = snd c) calls.
Proof.
  induction calls as [|[[i s] n] cs IH]; intros idx pos Hp HT; constructor; cbn [tiles] in HT; destruct HT as (-> & -> & Hn & HT).
  - cbn [piece snd]. pose proof (tiles_le _ _ _ _ HT). rewrite firstn_length, skipn_length. lia.
  - eapply IH; [|exact HT]. lia.
Qed.

Lemma parallelize_pointwise {A} (g : nat -> A) (cb : Z -> Z -> list A -> list A) threads threshold (l : list A) :
  0 < threads -> 2 * Z.of_nat (length l) + threads < 2 ^ 64 ->
  (forall i c s, length (cb i c s) = length s) ->
  (forall i c s, 0 <= i -> 0 < c -> s <> [] -> i * c + Z.of_nat (length s) <= Z.of_nat (length l) ->
     cb i c s = map g (seq (Z.to_nat (i * c)) (length s))) ->
  parallelize threads threshold cb l = Some (map g (seq 0 (length l))).
Proof.
  intros Ht Hb HL Hcb. unfold parallelize, parallelize_by_chunk.
  destruct (container_partition threads (Z.of_nat (length l)) threshold Ht ltac:(lia) Hb) as [HT _].
  set (c := num_elements_per_thread _ _ _) in *.
  rewrite run_calls_seq by auto. f_equal.
  destruct (container_chunk threads (Z.of_nat (length l)) threshold Ht ltac:(lia) Hb) as [[E1 E2]|[E1 E2]]; fold c in E2.
  - rewrite E2, chunk_calls_zero. destruct l; [reflexivity|cbn in E1; lia].
  - pose proof (tiles_pointwise g _ 0 0 _ ltac:(lia) HT) as TP. rewrite Z.sub_0_r, Nat2Z.id in TP.
    change (Z.to_nat 0) with 0%nat in TP. rewrite <- TP. clear TP. f_equal.
    destruct (by_chunk_partition (Z.of_nat (length l)) c ltac:(lia) ltac:(lia) ltac:(lia)) as (_ & HS & _).
    pose proof (piece_length l _ 0 0 ltac:(lia) HT) as HP.
    assert (Hi : Forall (fun t => 0 <= fst (fst t)) (chunk_calls (Z.of_nat (length l)) c)).
    { rewrite calls_eq by lia. apply Forall_map, Forall_forall. intros; cbn; lia. }
    apply map_ext_in. intros [[i s] n] Hin.
    rewrite Forall_forall in HS, HP, Hi. specialize (HS _ Hin). specialize (HP _ Hin). specialize (Hi _ Hin).
    cbn [fst snd] in *. destruct HS as [-> Hn].
    rewrite Hcb; try lia.
    + do 2 f_equal. lia.
    + intros E. rewrite E in HP. cbn in HP. lia.
    + assert (HPl : (length (piece l (i, (i * c)%Z, n)) <= length l - Z.to_nat (i * c))%nat).
      { cbn [piece]. rewrite firstn_length, skipn_length. lia. }
      assert (0 <= i * c) by nia. lia.
Qed.

Lemma fill_spec {A} threads threshold (v : A) l : 0 < threads -> 2 * Z.of_nat (length l) + threads < 2 ^ 64 ->
  parallelize_fill threads threshold v l = Some (repeat v (length l)).
Proof.
  intros. unfold parallelize_fill.
  assert (E : forall (B : Type) (s : list B) (k : nat), map (fun _ => v) s = map (fun _ => v) (seq k (length s))).
  { induction s; intros; cbn; f_equal; auto. }
  rewrite (parallelize_pointwise (fun _ => v)); auto.
  - f_equal. generalize 0%nat. clear. induction (length l) as [|m IHm]; intros k; cbn; [reflexivity|]. f_equal. apply IHm.
  - intros. apply map_length.
Qed.

(** ParallelizeMap: one value per chunk, in chunk order. *)
Lemma map_by_chunk_spec {A B} chunk (cb : Z -> Z -> list A -> B) (l : list A) :
  parallelize_map_by_chunk chunk cb l =
  map (fun c => cb (fst (fst c)) chunk (piece l c)) (chunk_calls (Z.of_nat (length l)) chunk).
Proof. unfold parallelize_map_by_chunk. apply map_ext. intros [[i s] n]. reflexivity. Qed.

Lemma map_pieces {A} chunk (l : list A) : 0 < chunk -> Z.of_nat (length l) + chunk < 2 ^ 64 ->
  concat (parallelize_map_by_chunk chunk (fun _ _ s => s) l) = l.
Proof.
  intros. rewrite map_by_chunk_spec. apply pieces_concat with (idx := 0) (pos := 0) (pre := []); auto.
  apply chunk_calls_tiles; lia.
Qed.

(** ** Schedules *)
Lemma schedule_by_chunk {A} chunk (l : list A) progs mem' :
  0 < chunk -> Z.of_nat (length l) + chunk < 2 ^ 64 ->
  let calls := chunk_calls (Z.of_nat (length l)) chunk in
  length progs = length calls -> Forall (Forall keeps_length) progs ->
  par_steps calls (Build_par_state l progs) (Build_par_state mem' (repeat [] (length calls))) ->
  mem' = piecewise calls progs l.
Proof. intros Hc Hb calls. apply any_schedule. apply chunk_calls_tiles; lia. Qed.

Lemma progress_by_chunk {A} chunk (l : list A) progs s k f rest :
  0 < chunk -> Z.of_nat (length l) + chunk < 2 ^ 64 ->
  let calls := chunk_calls (Z.of_nat (length l)) chunk in
  length progs = length calls -> Forall (Forall keeps_length) progs ->
  par_steps calls (Build_par_state l progs) s -> nth_error (ps_progs s) k = Some (f :: rest) ->
  exists t, par_step calls s t /\ ps_progs t = set_nth k rest (ps_progs s).
Proof. intros Hc Hb calls. apply no_bad_access. apply chunk_calls_tiles; lia. Qed.

Lemma schedule_map {A} chunk (l : list A) progs mem' (f : A -> A) :
  0 < chunk -> Z.of_nat (length l) + chunk < 2 ^ 64 ->
  let calls := chunk_calls (Z.of_nat (length l)) chunk in
  length progs = length calls -> Forall (Forall keeps_length) progs ->
  Forall (fun prog => forall s, run_prog prog s = map f s) progs ->
  par_steps calls (Build_par_state l progs) (Build_par_state mem' (repeat [] (length calls))) ->
  mem' = map f l.
Proof.
  intros Hc Hb calls HL HK HM Hst. rewrite (schedule_by_chunk chunk l progs mem' Hc Hb HL HK Hst).
  unfold piecewise. fold calls.
  destruct (pieces_concat calls 0 0 l [] (chunk_calls_tiles (Z.of_nat (length l)) chunk ltac:(lia) Hc Hb) eq_refl) as [E _].
  cbn [app] in E. transitivity (map f (concat (map (piece l) calls))); [|rewrite E; reflexivity]. rewrite concat_map, map_map. f_equal.
  clear -HL HM. revert progs HL HM. clearbody calls. induction calls as [|c cs IH]; intros [|p ps] HL HM; cbn in *; try discriminate; [reflexivity|].
  inversion HM as [|? ? H1 H2]; subst. f_equal; [apply H1|]. apply IH; auto.
Qed.

(** ** Resize *)

Lemma seq_nth_pad {A} (d x : A) (l : list A) size :
  map (fun j => if Nat.ltb j (length l) then nth j l d else x) (seq 0 size) = resized l size x.
Proof.
  unfold resized. revert l. induction size as [|size IH]; intros l; [destruct l; reflexivity|].
  destruct l as [|a l].
  - cbn [firstn app length Nat.sub]. rewrite (map_ext _ (fun _ => x)) by (intros; reflexivity).
    generalize 0%nat. induction (S size) as [|m IHm]; intros s; cbn; f_equal; auto.
  - cbn [seq map length Nat.ltb Nat.leb firstn app nth Nat.sub]. f_equal.
    rewrite <- IH. rewrite <- seq_shift, map_map. apply map_ext. intros j. reflexivity.
Qed.

Lemma resize_spec {A} (dflt : A) threads threshold cap l size :
  0 < threads -> 2 * Z.of_nat (length l) + threads < 2 ^ 64 -> Z.of_nat (length l) <= cap ->
  parallelize_resize dflt threads threshold cap l size = Some (resized l size dflt).
Proof.
  intros Ht Hb Hcap. unfold parallelize_resize. destruct (Z.of_nat size <? cap) eqn:E; [reflexivity|].
  replace (Nat.leb (length l) size) with true by lia.
  rewrite (parallelize_pointwise (fun j => nth j l dflt)); rewrite ?firstn_length, ?repeat_length, ?Nat.min_l by lia; auto.
  - f_equal. unfold resized. f_equal.
    + rewrite firstn_all2 by lia. clear. induction l as [|a l IH]; [reflexivity|].
      cbn [length seq map nth]. f_equal. rewrite <- seq_shift, map_map. exact IH.
    + clear -E Hcap. assert (H : (length l <= size)%nat) by lia. revert H. generalize (length l). intros n H. clear -H.
      revert size H. induction n; intros size H; [rewrite Nat.sub_0_r; reflexivity|].
      destruct size; [lia|]. cbn. apply IHn. lia.
  - intros. rewrite map_length, seq_length. reflexivity.
  - intros i c s Hi Hc Hs Hl. apply (map_seq_shift (fun j => nth j l dflt)).
Qed.

Lemma resize_value_grow {A} (dflt value : A) threads threshold cap l size :
  0 < threads -> 2 * Z.of_nat size + threads < 2 ^ 64 -> Z.of_nat (length l) <= cap ->
  (length l <= size)%nat ->
  parallelize_resize_value dflt value threads threshold cap l size = Some (resized l size value).
Proof.
  intros Ht Hb Hcap Hsz. unfold parallelize_resize_value. destruct (Z.of_nat size <? cap) eqn:E.
  - rewrite trunc_small by lia. replace (_ <=? _) with true by lia.
    replace (size - Z.to_nat (Z.of_nat size - Z.of_nat (length l)))%nat with (length l) by lia.
    unfold vec_resize. rewrite firstn_all2 by lia.
    rewrite skipn_app, skipn_all, Nat.sub_diag. cbn [skipn app].
    change (fun (_ _ : Z) (s : list A) => map (fun _ => value) s) with (fun (_ _ : Z) (s : list A) => map (fun _ => value) s).
    pose proof (fill_spec threads threshold value (repeat dflt (size - length l)) Ht) as HF.
    rewrite repeat_length in HF. unfold parallelize_fill in HF. rewrite HF by lia.
    f_equal. rewrite firstn_app, firstn_all, Nat.sub_diag. cbn [firstn]. rewrite app_nil_r.
    unfold resized. rewrite firstn_all2 by lia. reflexivity.
  - rewrite (parallelize_pointwise (fun j => if Nat.ltb j (length l) then nth j l dflt else value));
      rewrite ?repeat_length; auto.
    + rewrite seq_nth_pad. reflexivity.
    + intros. rewrite map_length, seq_length. reflexivity.
    + intros i c s Hi Hc Hs Hl.
      apply (map_seq_shift (fun j => if Nat.ltb j (length l) then nth j l dflt else value)).
Qed.

Lemma resize_value_shrink_fails {A} (dflt value : A) threads threshold cap l size :
  (size < length l)%nat -> Z.of_nat (length l) <= cap -> cap < 2 ^ 63 ->
  parallelize_resize_value dflt value threads threshold cap l size = None.
Proof.
  intros Hs Hcap Hc. unfold parallelize_resize_value. replace (Z.of_nat size <? cap) with true by lia.
  unfold trunc. replace (Z.of_nat size - Z.of_nat (length l)) with
    (Z.of_nat size - Z.of_nat (length l) + 2 ^ 64 + (-1) * 2 ^ 64) by lia.
  rewrite Z.mod_add by lia. rewrite Z.mod_small by lia.
  replace (_ <=? _) with false by lia. reflexivity.
Qed.
