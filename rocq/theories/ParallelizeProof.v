(** Proofs about the parallel loops. *)
From Coq Require Import ZArith List Bool Lia.
From Coq Require Import ZifyBool ZifyNat.
From Verif Require Import BigIntModel ParallelizeModel ParallelizeSpec.
Import ListNotations.
Open Scope Z_scope.

Lemma trunc_small w x : 0 <= x < 2 ^ w -> trunc w x = x.
Proof. intros. unfold trunc. apply Z.mod_small. auto. Qed.

Section Arith.
  Variables (size c : Z).
  Hypotheses (Hs : 0 <= size) (Hc : 0 < c) (Hb : size + c < 2 ^ 64).
  Let n := (size + c - 1) / c.

  Lemma num_chunks_eq : num_chunks size c = n.
  Proof.
    unfold num_chunks. rewrite (trunc_small 64 (size + c)) by lia.
    rewrite trunc_small by lia. unfold n. f_equal; lia.
  Qed.
  Lemma n_nonneg : 0 <= n. Proof. unfold n. apply Z.div_pos; lia. Qed.
  Lemma n_bounds : 0 < size -> (n - 1) * c < size <= n * c.
  Proof.
    intros. unfold n. pose proof (Z.div_mod (size + c - 1) c ltac:(lia)).
    pose proof (Z.mod_pos_bound (size + c - 1) c ltac:(lia)). nia.
  Qed.
  Lemma n_zero : size = 0 -> n = 0.
  Proof. intros ->. unfold n. apply Z.div_small. lia. Qed.

  Definition len_at (i : Z) : Z := if i =? n - 1 then size - i * c else c.

  Lemma calls_eq : chunk_calls size c =
    map (fun k => (Z.of_nat k, Z.of_nat k * c, len_at (Z.of_nat k))) (seq 0 (Z.to_nat n)).
  Proof.
    unfold chunk_calls. replace (c =? 0) with false by lia. cbv zeta. rewrite num_chunks_eq.
    apply map_ext_in. intros k Hk. apply in_seq in Hk.
    assert (Hsz : 0 < size). { destruct (Z.eq_dec size 0) as [E|E]; [|lia]. pose proof (n_zero E). lia. }
    pose proof (n_bounds Hsz). pose proof n_nonneg.
    assert (Z.of_nat k * c <= (n - 1) * c) by nia.
    assert (n <= n * c) by nia.
    rewrite (trunc_small 64 (Z.of_nat k * c)) by lia.
    f_equal. unfold chunk_len, len_at. rewrite (trunc_small 64 (n - 1)) by lia.
    destruct (Z.of_nat k =? n - 1) eqn:E; [|reflexivity].
    rewrite (trunc_small 64 (Z.of_nat k * c)) by lia. rewrite trunc_small by lia. reflexivity.
  Qed.

  Lemma tiles_seq : 0 < size -> forall m k, Z.of_nat k + Z.of_nat m = n -> (0 < m)%nat ->
    tiles (Z.of_nat k) (Z.of_nat k * c)
      (map (fun k => (Z.of_nat k, Z.of_nat k * c, len_at (Z.of_nat k))) (seq k m)) size.
  Proof.
    intros Hsz. pose proof (n_bounds Hsz) as Hn.
    induction m as [|m IH]; intros k Hk Hm; [lia|]. cbn [seq map tiles].
    repeat split; auto.
    - unfold len_at. destruct (Z.of_nat k =? n - 1) eqn:E; nia.
    - destruct m as [|m].
      + cbn [seq map tiles]. unfold len_at. replace (Z.of_nat k =? n - 1) with true by lia. lia.
      + replace (Z.of_nat k + 1) with (Z.of_nat (S k)) by lia.
        replace (Z.of_nat k * c + len_at (Z.of_nat k)) with (Z.of_nat (S k) * c)
          by (unfold len_at; replace (Z.of_nat k =? n - 1) with false by lia; lia).
        apply IH; lia.
  Qed.

  Lemma chunk_calls_tiles : tiles 0 0 (chunk_calls size c) size.
  Proof.
    rewrite calls_eq. destruct (Z.eq_dec size 0) as [E|E].
    - rewrite (n_zero E). cbn. lia.
    - pose proof (n_bounds ltac:(lia)). pose proof n_nonneg.
      apply (tiles_seq ltac:(lia) (Z.to_nat n) 0); [|nia]. lia.
  Qed.

  Lemma chunk_calls_shape : Forall (fun t => match t with (i, start, len) =>
    start = i * c /\ 0 < len <= c end) (chunk_calls size c).
  Proof.
    rewrite calls_eq. apply Forall_map. apply Forall_forall. intros k Hk. apply in_seq in Hk.
    split; [reflexivity|].
    assert (Hsz : 0 < size). { destruct (Z.eq_dec size 0) as [E|E]; [|lia]. pose proof (n_zero E). lia. }
    pose proof (n_bounds Hsz). unfold len_at. destruct (Z.of_nat k =? n - 1) eqn:E; nia.
  Qed.

  Lemma chunk_calls_length : Z.of_nat (length (chunk_calls size c)) = n.
  Proof. rewrite calls_eq, map_length, seq_length. pose proof n_nonneg. lia. Qed.
End Arith.

Lemma chunk_calls_zero size : chunk_calls size 0 = []. Proof. reflexivity. Qed.

Lemma size_per_thread_eq threads total : 0 < threads -> 0 <= total -> total + threads < 2 ^ 64 ->
  size_per_thread threads total None = (total + threads - 1) / threads.
Proof.
  intros. unfold size_per_thread. rewrite (trunc_small 64 (total + threads)) by lia.
  rewrite trunc_small by lia. reflexivity.
Qed.

Lemma parallelize_calls threads size : 0 < threads -> 0 <= size -> 2 * size + threads < 2 ^ 64 ->
  let calls := chunk_calls size (size_per_thread threads size None) in
  tiles 0 0 calls size /\ Z.of_nat (length calls) <= threads.
Proof.
  intros Ht Hs Hb. cbv zeta. rewrite size_per_thread_eq by lia.
  set (c := (size + threads - 1) / threads).
  assert (Hc : size <= c * threads /\ c * threads <= size + threads - 1).
  { unfold c. pose proof (Z.div_mod (size + threads - 1) threads ltac:(lia)).
    pose proof (Z.mod_pos_bound (size + threads - 1) threads ltac:(lia)). nia. }
  destruct (Z.eq_dec size 0) as [E|E].
  - assert (c = 0) by (apply Z.div_small; lia). replace c with 0. rewrite chunk_calls_zero. cbn. lia.
  - assert (0 < c) by nia. assert (c <= size + threads - 1) by nia.
    assert (c <= size). { unfold c. apply Z.div_le_upper_bound; [lia|]. nia. }
    split; [apply chunk_calls_tiles; lia|].
    rewrite chunk_calls_length by lia.
    enough ((size + c - 1) / c < threads + 1) by lia.
    apply Z.div_lt_upper_bound; [lia|]. nia.
Qed.

(** ** Executions *)

Lemma on_slice_concat {A} (f : list A -> list A) : forall calls idx pos (bs : list (list A)) pre k i s n b,
  tiles idx pos calls (pos + Z.of_nat (length (concat bs))) -> 0 <= pos ->
  Forall2 (fun t b => match t with (_, _, n) => n = Z.of_nat (length b) end) calls bs ->
  Z.of_nat (length pre) = pos ->
  nth_error calls k = Some (i, s, n) -> nth_error bs k = Some b ->
  on_slice (Z.to_nat s) (Z.to_nat n) f (pre ++ concat bs) = Some (pre ++ concat (set_nth k (f b) bs)).
Proof.
  induction calls as [|[[i0 s0] n0] calls IH]; intros idx pos bs pre k i s n b HT Hp HF Hpre Hk Hb.
  - destruct k; discriminate.
  - inversion HF as [|? b0 ? bs' Hn HF' E1 E2]; subst bs. cbn [tiles] in HT. destruct HT as (-> & -> & Hn0 & HT).
    destruct k as [|k]; cbn in Hk, Hb.
    + injection Hk as <- <- <-. injection Hb as <-. subst n0.
      unfold on_slice, slice. cbn [concat]. rewrite Nat2Z.id.
      replace (Z.to_nat pos) with (length pre) by lia.
      rewrite !app_length. replace (Nat.leb _ _) with true by lia.
      f_equal. rewrite firstn_app, Nat.sub_diag, firstn_all. cbn [firstn]. rewrite app_nil_r. f_equal.
      rewrite skipn_app, Nat.sub_diag, skipn_all. cbn [skipn app].
      rewrite firstn_app, Nat.sub_diag, firstn_all. cbn [firstn]. rewrite app_nil_r. cbn [set_nth concat]. f_equal.
      rewrite skipn_app. rewrite (skipn_all2 pre) by lia. cbn [app].
      replace (length pre + length b0 - length pre)%nat with (length b0) by lia.
      rewrite skipn_app, Nat.sub_diag, skipn_all. reflexivity.
    + cbn [concat set_nth]. rewrite !app_assoc.
      apply (IH (idx + 1) (pos + n0) bs' (pre ++ b0) k i s n b); auto.
      * cbn [concat] in HT. rewrite app_length in HT. subst n0.
        replace (pos + Z.of_nat (length b0) + Z.of_nat (length (concat bs'))) with
          (pos + Z.of_nat (length b0 + length (concat bs'))) by lia. exact HT.
      * lia.
      * rewrite app_length. lia.
Qed.

Lemma set_nth_length {B} (x : B) : forall l k, length (set_nth k x l) = length l.
Proof. induction l; destruct k; cbn; auto. Qed.
Lemma set_nth_same {B} (x : B) : forall l k y, nth_error l k = Some y -> nth_error (set_nth k x l) k = Some x.
Proof. induction l; destruct k; cbn; intros; try discriminate; eauto. Qed.
Lemma set_nth_other {B} (x : B) : forall l k j, j <> k -> nth_error (set_nth k x l) j = nth_error l j.
Proof. induction l; destruct k, j; cbn; intros; try congruence; auto. Qed.

Lemma Forall2_length {A B} (R : A -> B -> Prop) l1 l2 : Forall2 R l1 l2 -> length l1 = length l2.
Proof. induction 1; cbn; congruence. Qed.

Lemma tiles_le : forall cs i p e, tiles i p cs e -> p <= e.
Proof.
  induction cs as [|[[i s] n] cs IHc]; cbn; intros; [lia|].
  destruct H as (-> & -> & ? & H). apply IHc in H. lia.
Qed.

(** Splitting a container into the pieces of its calls. *)
Lemma pieces_concat {A} : forall calls idx pos (l : list A) pre,
  tiles idx pos calls (pos + Z.of_nat (length l)) -> Z.of_nat (length pre) = pos ->
  concat (map (piece (pre ++ l)) calls) = l /\
  Forall2 (fun t b => match t with (_, _, n) => n = Z.of_nat (length b) end) calls (map (piece (pre ++ l)) calls).
Proof.
  induction calls as [|[[i0 s0] n0] calls IH]; intros idx pos l pre HT Hpre; cbn [tiles] in HT.
  - split; [|constructor]. destruct l; [reflexivity|cbn in HT; lia].
  - destruct HT as (-> & -> & Hn & HT). pose proof (tiles_le _ _ _ _ HT) as Hle.
    assert (Hk : (Z.to_nat n0 <= length l)%nat) by lia.
    set (l1 := firstn (Z.to_nat n0) l). set (l2 := skipn (Z.to_nat n0) l).
    assert (El : l = l1 ++ l2) by (symmetry; apply firstn_skipn).
    assert (Hl1 : length l1 = Z.to_nat n0) by (apply firstn_length_le; exact Hk).
    assert (Hpc : piece (pre ++ l) (idx, pos, n0) = l1).
    { unfold piece. replace (Z.to_nat pos) with (length pre) by lia.
      rewrite skipn_app, Nat.sub_diag, skipn_all. reflexivity. }
    destruct (IH (idx + 1) (pos + n0) l2 (pre ++ l1)) as [I1 I2].
    + assert (length l = (length l1 + length l2)%nat) by (rewrite El at 1; apply app_length).
      replace (pos + n0 + Z.of_nat (length l2)) with (pos + Z.of_nat (length l)) by lia. exact HT.
    + rewrite app_length. lia.
    + assert (E2 : (pre ++ l1) ++ l2 = pre ++ l) by (rewrite <- app_assoc, <- El; reflexivity).
      rewrite E2 in *. cbn [map concat]. rewrite Hpc, I1. split; [symmetry; exact El|].
      constructor; [lia|exact I2].
Qed.

Section Schedule.
  Context {A : Type}.
  Variables (calls : list (Z * Z * Z)) (l : list A).
  Hypothesis HT : tiles 0 0 calls (Z.of_nat (length l)).

  Definition blocks_ok (bs : list (list A)) : Prop :=
    Forall2 (fun t b => match t with (_, _, n) => n = Z.of_nat (length b) end) calls bs.

  Lemma blocks_total bs bs' : blocks_ok bs -> blocks_ok bs' -> length (concat bs) = length (concat bs').
  Proof.
    unfold blocks_ok. generalize calls. intros cs H. revert bs'. induction H as [|[[i s] n] b cs bs E F IH]; intros bs' H'.
    - inversion H'. reflexivity.
    - inversion H' as [|? b' ? bs2 E' F']; subst bs'. cbn [concat]. rewrite !app_length. rewrite (IH _ F').
      f_equal. apply Nat2Z.inj. rewrite <- E. exact E'.
  Qed.

  Lemma init_blocks : concat (map (piece l) calls) = l /\ blocks_ok (map (piece l) calls).
  Proof. exact (pieces_concat calls 0 0 l [] HT eq_refl). Qed.

  Lemma block_step bs k i s n b f : blocks_ok bs -> nth_error calls k = Some (i, s, n) ->
    nth_error bs k = Some b ->
    on_slice (Z.to_nat s) (Z.to_nat n) f (concat bs) = Some (concat (set_nth k (f b) bs)).
  Proof.
    intros HF Hk Hb. destruct init_blocks as [E0 F0].
    apply (on_slice_concat f calls 0 0 bs [] k i s n b); auto; try lia.
    rewrite (blocks_total bs _ HF F0), E0. exact HT.
  Qed.

  Lemma block_step_ok bs k b f : blocks_ok bs -> keeps_length f -> nth_error bs k = Some b ->
    blocks_ok (set_nth k (f b) bs).
  Proof.
    unfold blocks_ok. generalize calls. intros cs H Hf. revert k. induction H as [|[[i s] n] b0 cs bs E F IH]; intros k Hb.
    - destruct k; discriminate.
    - destruct k as [|k]; cbn in Hb |- *.
      + injection Hb as <-. constructor; auto. rewrite Hf. exact E.
      + constructor; auto.
  Qed.

  Definition outcome (bs : list (list A)) (progs : list (list (list A -> list A))) : list (list A) :=
    map (fun bp => run_prog (snd bp) (fst bp)) (combine bs progs).

  Lemma outcome_step : forall bs progs k b f rest, nth_error bs k = Some b ->
    nth_error progs k = Some (f :: rest) ->
    outcome (set_nth k (f b) bs) (set_nth k rest progs) = outcome bs progs.
  Proof.
    unfold outcome. induction bs as [|b0 bs IH]; intros progs k b f rest Hb Hp; [destruct k; discriminate|].
    destruct progs as [|p0 progs]; [destruct k; discriminate|]. destruct k as [|k]; cbn in *.
    - injection Hb as <-. injection Hp as ->. reflexivity.
    - f_equal. eauto.
  Qed.

  Definition sched_inv (final : list (list A)) (s : par_state A) : Prop :=
    exists bs, ps_mem s = concat bs /\ blocks_ok bs /\ length (ps_progs s) = length calls /\
      Forall (Forall keeps_length) (ps_progs s) /\ outcome bs (ps_progs s) = final.

  Lemma Forall_set_nth {B} (P : B -> Prop) x : forall k ls, Forall P ls -> P x -> Forall P (set_nth k x ls).
  Proof. induction k; intros ls H Hx; inversion H; subst; cbn; auto. Qed.

  Lemma sched_inv_step final s t : sched_inv final s -> par_step calls s t -> sched_inv final t.
  Proof.
    intros (bs & Em & HB & HL & HK & HO) Hst. inversion Hst as [k i st n f rest mem mem' progs Hk Hp Hs]; subst.
    cbn in *. subst mem.
    assert (Hb : exists b, nth_error bs k = Some b).
    { apply Forall2_length in HB. destruct (nth_error bs k) eqn:E; eauto.
      apply nth_error_None in E. assert (k < length calls)%nat by (apply nth_error_Some; congruence). lia. }
    destruct Hb as [b Hb]. rewrite (block_step bs k i st n b f HB Hk Hb) in Hs. injection Hs as <-.
    assert (Hff : Forall keeps_length (f :: rest)) by (rewrite Forall_forall in HK; apply HK; eapply nth_error_In; eauto).
    inversion Hff as [|? ? Hf Hrest]; subst.
    exists (set_nth k (f b) bs). cbn. repeat split.
    - apply block_step_ok; auto.
    - rewrite set_nth_length. exact HL.
    - apply Forall_set_nth; auto.
    - apply outcome_step; auto.
  Qed.

  Lemma sched_inv_steps final s t : par_steps calls s t -> sched_inv final s -> sched_inv final t.
  Proof. induction 1; auto. intros. apply IHpar_steps. eapply sched_inv_step; eauto. Qed.

  Lemma outcome_nil : forall bs : list (list A), outcome bs (repeat [] (length bs)) = bs.
  Proof. unfold outcome. induction bs; cbn; f_equal; auto. Qed.

  Lemma outcome_pieces progs : concat (outcome (map (piece l) calls) progs) = piecewise calls progs l.
  Proof.
    unfold outcome, piecewise. f_equal. revert progs. generalize calls. induction calls0 as [|c cs IH]; intros [|p ps]; cbn; f_equal; auto.
  Qed.

  Theorem any_schedule progs mem' : length progs = length calls -> Forall (Forall keeps_length) progs ->
    par_steps calls (Build_par_state l progs) (Build_par_state mem' (repeat [] (length calls))) ->
    mem' = piecewise calls progs l.
  Proof.
    intros HL HK Hst. destruct init_blocks as [E0 F0].
    assert (HI : sched_inv (outcome (map (piece l) calls) progs) (Build_par_state l progs)).
    { exists (map (piece l) calls). cbn. auto. }
    apply (sched_inv_steps _ _ _ Hst) in HI. destruct HI as (bs & Em & HB & _ & _ & HO). cbn in *.
    rewrite <- outcome_pieces, <- HO. subst mem'. f_equal. apply Forall2_length in HB. rewrite HB. symmetry. apply outcome_nil.
  Qed.

  Theorem no_bad_access progs s k f rest : length progs = length calls -> Forall (Forall keeps_length) progs ->
    par_steps calls (Build_par_state l progs) s -> nth_error (ps_progs s) k = Some (f :: rest) ->
    exists t, par_step calls s t /\ ps_progs t = set_nth k rest (ps_progs s).
  Proof.
    intros HL HK Hst Hk. destruct init_blocks as [E0 F0].
    assert (HI : sched_inv (outcome (map (piece l) calls) progs) (Build_par_state l progs)).
    { exists (map (piece l) calls). cbn. auto. }
    apply (sched_inv_steps _ _ _ Hst) in HI. destruct HI as (bs & Em & HB & HLs & _ & _). cbn in *.
    assert (Hkc : (k < length calls)%nat) by (rewrite <- HLs; apply nth_error_Some; congruence).
    destruct (nth_error calls k) as [[[i st] n]|] eqn:Ec; [|apply nth_error_None in Ec; lia].
    destruct (nth_error bs k) as [b|] eqn:Eb; [|apply nth_error_None in Eb; apply Forall2_length in HB; lia].
    pose proof (block_step bs k i st n b f HB Ec Eb) as Hs. rewrite <- Em in Hs.
    destruct s as [mem ps]. eexists. split; [econstructor; eauto|]. reflexivity.
  Qed.
End Schedule.

(** Sequential run = piecewise application. *)
Lemma run_calls_blocks {A} (cb : Z -> Z -> list A -> list A) chunk :
  (forall i s, length (cb i chunk s) = length s) ->
  forall calls idx pos (l pre : list A),
  tiles idx pos calls (pos + Z.of_nat (length l)) -> Z.of_nat (length pre) = pos ->
  run_calls cb chunk calls (pre ++ l) =
  Some (pre ++ concat (map (fun c => cb (fst (fst c)) chunk (piece (pre ++ l) c)) calls)).
Proof.
  intros Hcb. induction calls as [|[[i0 s0] n0] calls IH]; intros idx pos l pre HT Hpre; cbn [tiles] in HT.
  - destruct l; [reflexivity|cbn in HT; lia].
  - destruct HT as (-> & -> & Hn & HT). pose proof (tiles_le _ _ _ _ HT) as Hle.
    assert (Hk : (Z.to_nat n0 <= length l)%nat) by lia.
    set (l1 := firstn (Z.to_nat n0) l). set (l2 := skipn (Z.to_nat n0) l).
    assert (El : l = l1 ++ l2) by (symmetry; apply firstn_skipn).
    assert (Hl1 : length l1 = Z.to_nat n0) by (apply firstn_length_le; exact Hk).
    assert (Hpc : forall q, length q = length pre -> piece (q ++ l) (idx, pos, n0) = l1).
    { intros q Hq. unfold piece. replace (Z.to_nat pos) with (length q) by lia.
      rewrite skipn_app, Nat.sub_diag, skipn_all. reflexivity. }
    cbn [run_calls]. unfold on_slice. rewrite app_length. replace (Nat.leb _ _) with true by lia.
    fold (piece (pre ++ l) (idx, pos, n0)) . change (slice (pre ++ l) (Z.to_nat pos) (Z.to_nat n0)) with (piece (pre ++ l) (idx, pos, n0)).
    rewrite Hpc by reflexivity. replace (Z.to_nat pos) with (length pre) by lia.
    rewrite firstn_app, Nat.sub_diag, firstn_all. cbn [firstn]. rewrite app_nil_r.
    rewrite skipn_app. rewrite (skipn_all2 pre) by lia. cbn [app].
    replace (length pre + Z.to_nat n0 - length pre)%nat with (Z.to_nat n0) by lia. fold l2.
    rewrite app_assoc. rewrite (IH (idx + 1) (pos + n0) l2 (pre ++ cb idx chunk l1)).
    + rewrite <- app_assoc. cbn [map concat fst]. rewrite Hpc by reflexivity. do 4 f_equal.
      apply map_ext_in. intros [[i s] n] Hin. cbn [fst]. f_equal.
      (* later pieces are unaffected *)
      assert (Hs : pos + n0 <= s).
      { clear -HT Hin Hn. revert HT Hin. generalize (idx + 1) (pos + n0). revert i s n.
        induction calls as [|[[i0 s0] n1] cs IHc]; intros i s n ix p HT Hin; [contradiction|].
        cbn [tiles] in HT. destruct HT as (-> & -> & Hn1 & HT). destruct Hin as [E|Hin].
        - injection E as <- <- <-. lia.
        - specialize (IHc _ _ _ _ _ HT Hin). lia. }
      unfold piece. f_equal.
      replace (pre ++ l) with ((pre ++ l1) ++ l2) by (rewrite <- app_assoc, <- El; reflexivity).
      rewrite !skipn_app. rewrite !app_length, Hcb, Hl1.
      rewrite (skipn_all2 pre), (skipn_all2 l1), (skipn_all2 (cb idx chunk l1)) by (rewrite ?Hcb; lia).
      reflexivity.
    + assert (length l = (length l1 + length l2)%nat) by (rewrite El at 1; apply app_length).
      replace (pos + n0 + Z.of_nat (length l2)) with (pos + Z.of_nat (length l)) by lia. exact HT.
    + rewrite app_length, Hcb. lia.
Qed.

Lemma run_calls_seq {A} (cb : Z -> Z -> list A -> list A) chunk calls (l : list A) :
  (forall i s, length (cb i chunk s) = length s) -> tiles 0 0 calls (Z.of_nat (length l)) ->
  run_calls cb chunk calls l = Some (concat (map (fun c => cb (fst (fst c)) chunk (piece l c)) calls)).
Proof. intros Hcb HT. exact (run_calls_blocks cb chunk Hcb calls 0 0 l [] HT eq_refl). Qed.
