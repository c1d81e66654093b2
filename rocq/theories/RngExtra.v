(** Corollaries and witnesses used to close the theorems of RngProps. *)
From Coq Require Import ZArith List Bool Lia Arith.
From Verif Require Import BigIntModel PrimeFieldModel BufferModel BufferSpec BufferProof RngModel RngSpec RngProof RngProof2 RngProof3.
Import ListNotations.
Open Scope Z_scope.

Lemma chacha20_block_ok : block_function chacha20_block.
Proof.
  intros inp. unfold chacha20_block. set (x := Nat.iter 10 double_round inp). clearbody x. split.
  - reflexivity.
  - apply concat_range. intros i. unfold word_bytes. apply Forall_forall. intros y Hy. apply in_map_iff in Hy.
    destruct Hy as (k & <- & _). apply Z.mod_pos_bound. lia.
Qed.
Lemma seed_sizes : (forall seed s, length seed <> 16%nat -> xs_set_seed seed s = (false, s)) /\
  (forall seed s, length seed <> 32%nat -> cc_set_seed seed s = (false, s)).
Proof.
  split; intros seed s H; apply Nat.eqb_neq in H; [unfold xs_set_seed|unfold cc_set_seed]; rewrite H; reflexivity.
Qed.
Lemma reseed_not_fresh : exists core ji jo k1 k2 n s1 l1 s2 s3 s4 v w f f',
  block_function core /\ length ji = 16%nat /\ byte_string 32 k1 /\ byte_string 32 k2 /\
  cc_set_seed k1 (cc_new ji jo) = (true, s1) /\ draw (cc_next core) n s1 = Some (l1, s2) /\
  cc_set_seed k2 s2 = (true, s3) /\ cc_next core s3 = Some (v, s4) /\
  cc_set_seed k2 (cc_new ji jo) = (true, f) /\ cc_next core f = Some (w, f') /\ v <> w.
Proof.
  exists (fun l => repeat (nth 4 l 0 mod 256) 64), (repeat 0 16), (repeat 0 64), (repeat 0 32), (repeat 1 32), 1%nat.
  do 9 eexists.
  assert (B : forall x n, 0 <= x < 256 -> byte_string n (repeat x n)).
  { intros x n Hx. split; [apply repeat_length|]. apply Forall_forall. intros y Hy. apply repeat_spec in Hy. lia. }
  split; [intros i; apply B, Z.mod_pos_bound; lia|]. split; [reflexivity|].
  split; [apply B; lia|]. split; [apply B; lia|].
  split; [vm_compute; reflexivity|]. split; [vm_compute; reflexivity|]. split; [vm_compute; reflexivity|].
  split; [vm_compute; reflexivity|]. split; [vm_compute; reflexivity|]. split; [vm_compute; reflexivity|]. discriminate.
Qed.
Lemma restored_index_out_of_bounds : exists b s s' b', in_range b /\ Forall (fun x => 0 <= x < 256) (bytes b) /\
  cc_read b s = (true, s', b') /\ forall core, cc_next core s' = None.
Proof.
  exists (Buf (17 :: repeat 0 135) 0 Native false), (CC 0 [] []). eexists. eexists.
  split; [split; vm_compute; [split; discriminate|reflexivity]|].
  split; [constructor; [lia|]; apply Forall_forall; intros y Hy; apply repeat_spec in Hy; lia|].
  split; [vm_compute; reflexivity|]. intros core. apply cc_next_undefined. cbn [cc_index]. lia.
Qed.
Lemma restored_index_iff : forall core b s s' b', cc_read b s = (true, s', b') -> 0 <= cc_index s' ->
  ((forall n, draw (cc_next core) n s' <> None) <-> cc_index s' <= 16).
Proof.
  intros core b s s' b' _ H0. split; intros H.
  - destruct (Z.le_gt_cases (cc_index s') 16) as [L|L]; [exact L|]. exfalso. apply (H 1%nat). cbn [draw].
    rewrite cc_next_undefined by lia. reflexivity.
  - intros n. destruct (cc_draw_defined core n s' (conj H0 H)) as (l & t & ->). discriminate.
Qed.

Lemma blind_spec {F S : Type} : forall (gen : S -> option (F * S)) factors (last : bool) evals s,
  Z.of_nat (length evals) < 2 ^ 32 -> 0 <= factors < 2 ^ 32 - 1 ->
  let rows := factors + (if last then 1 else 0) in
  (Z.of_nat (length evals) < rows -> blind gen factors last evals s = Some (false, evals, s)) /\
  (rows <= Z.of_nat (length evals) -> forall l s', draw gen (Z.to_nat rows) s = Some (l, s') ->
     blind gen factors last evals s = Some (true, firstn (length evals - Z.to_nat rows) evals ++ l, s')).
Proof.
  intros gen factors last evals s HL Hf rows. unfold blind.
  assert (Er : (if last then u32 (factors + 1) else factors) = rows).
  { unfold rows. destruct last; [apply u32_small|]; lia. }
  assert (Br : 0 <= rows) by (unfold rows; destruct last; lia).
  rewrite Er, (u32_small (Z.of_nat (length evals))) by lia. split; intros H.
  - destruct (Z.ltb_spec (Z.of_nat (length evals)) rows); [reflexivity|lia].
  - intros l s' D. destruct (Z.ltb_spec (Z.of_nat (length evals)) rows); [lia|].
    replace (Z.of_nat (length evals) - (Z.of_nat (length evals) - rows)) with rows by lia. rewrite D.
    rewrite Nat2Z.id, skipn_all, app_nil_r. do 4 f_equal. f_equal. lia.
Qed.
Lemma draw_length {S A} (next : S -> option (A * S)) n : forall s l s', draw next n s = Some (l, s') -> length l = n.
Proof.
  induction n as [|n IH]; intros s l s' E; cbn [draw] in E; [injection E as <- _; reflexivity|].
  destruct (next s) as [[a s1]|]; [|discriminate E]. destruct (draw next n s1) as [[r s2]|] eqn:D; [|discriminate E].
  injection E as <- _. cbn [length]. f_equal. eapply IH. exact D.
Qed.
Lemma blind_rows {F S : Type} : forall (gen : S -> option (F * S)) factors (last : bool) evals s out s',
  Z.of_nat (length evals) < 2 ^ 32 -> 0 <= factors < 2 ^ 32 - 1 ->
  let rows := (Z.to_nat factors + (if last then 1 else 0))%nat in
  blind gen factors last evals s = Some (true, out, s') ->
  (rows <= length evals)%nat /\ length out = length evals /\
  (forall i, (i < length evals - rows)%nat -> nth_error out i = nth_error evals i) /\
  draw gen rows s = Some (skipn (length evals - rows) out, s').
Proof.
  intros gen factors last evals s out s' HL Hf rows E.
  destruct (blind_spec gen factors last evals s HL Hf) as [B1 B2].
  set (r := factors + (if last then 1 else 0)) in *.
  assert (Er : Z.to_nat r = rows) by (unfold r, rows; destruct last; lia).
  destruct (Z.lt_ge_cases (Z.of_nat (length evals)) r) as [L|L]; [rewrite (B1 L) in E; discriminate E|].
  assert (Hr : (rows <= length evals)%nat) by (rewrite <- Er; lia). split; [exact Hr|].
  destruct (draw gen rows s) as [[l t]|] eqn:D.
  - rewrite <- Er in D. rewrite (B2 L l t D) in E. rewrite Er in *. injection E as <- <-.
    pose proof (draw_length _ _ _ _ _ D) as Ll.
    assert (Lf : length (firstn (length evals - rows) evals) = (length evals - rows)%nat) by (rewrite firstn_length; lia).
    split; [rewrite app_length, Lf, Ll; lia|]. split.
    + intros i Hi. rewrite nth_error_app1 by lia.
      transitivity (nth_error (firstn (length evals - rows) evals ++ skipn (length evals - rows) evals) i).
      * rewrite nth_error_app1 by lia. reflexivity.
      * rewrite firstn_skipn. reflexivity.
    + rewrite skipn_app, Lf, Nat.sub_diag, skipn_O. rewrite skipn_all2 by lia. reflexivity.
  - exfalso. unfold blind in E. fold (u32 (Z.of_nat (length evals))) in E.
    assert (Ew : (if last then u32 (factors + 1) else factors) = r).
    { unfold r. destruct last; [apply u32_small|]; lia. }
    rewrite Ew, (u32_small (Z.of_nat (length evals))) in E by lia.
    destruct (Z.ltb_spec (Z.of_nat (length evals)) r); [lia|].
    replace (Z.of_nat (length evals) - (Z.of_nat (length evals) - r)) with r in E by lia.
    rewrite Er, D in E. discriminate E.
Qed.
Lemma blind_too_small {F S : Type} : forall (gen : S -> option (F * S)) factors (last : bool) evals s,
  Z.of_nat (length evals) < 2 ^ 32 -> 0 <= factors < 2 ^ 32 - 1 ->
  Z.of_nat (length evals) < factors + (if last then 1 else 0) -> blind gen factors last evals s = Some (false, evals, s).
Proof. intros gen factors last evals s H1 H2. exact (proj1 (blind_spec gen factors last evals s H1 H2)). Qed.
Lemma blind_wraps : exists (gen : nat -> option (Z * nat)) factors evals s, 0 <= factors < 2 ^ 32 /\
  (0 < length evals)%nat /\ blind gen factors true evals s = Some (true, evals, s).
Proof.
  exists (fun s => Some (9, S s)), (2 ^ 32 - 1), [1; 2], 0%nat. split; [lia|]. split; [cbn; lia|]. vm_compute. reflexivity.
Qed.

Lemma get_index_spec : forall value idx scale size r, get_index value idx scale size = Some r ->
  0 < size /\ r = (idx + value * scale) mod size.
Proof.
  intros value idx scale size r E. unfold get_index, checked_i32 in E.
  destruct (Z.ltb_spec 0 size) as [Hs|Hs]; [|discriminate E]. cbn [negb] in E.
  destruct (_ && _) in E; [|discriminate E]. destruct (_ && _) in E; [|discriminate E]. injection E as <-.
  split; [exact Hs|]. set (q := idx + value * scale).
  destruct (Z.ltb_spec (Z.rem q size) 0) as [N|N].
  - apply (Z.mod_unique_pos _ _ (Z.quot q size - 1)); [pose proof (Z.rem_bound_abs q size ltac:(lia)); lia|].
    pose proof (Z.quot_rem' q size). lia.
  - apply (Z.mod_unique_pos _ _ (Z.quot q size)); [pose proof (Z.rem_bound_abs q size ltac:(lia)); lia|].
    pose proof (Z.quot_rem' q size). lia.
Qed.
Lemma get_index_defined : forall value idx scale size,
  get_index value idx scale size <> None <->
  0 < size /\ - 2 ^ 31 <= value * scale < 2 ^ 31 /\ - 2 ^ 31 <= idx + value * scale < 2 ^ 31.
Proof.
  intros value idx scale size. unfold get_index, checked_i32.
  destruct (Z.ltb_spec 0 size) as [Hs|Hs]; cbn [negb]; [|split; [congruence|lia]].
  destruct (Z.leb_spec (- 2 ^ 31) (value * scale)); cbn [andb]; [|split; [congruence|lia]].
  destruct (Z.ltb_spec (value * scale) (2 ^ 31)); cbn [andb]; [|split; [congruence|lia]].
  destruct (Z.leb_spec (- 2 ^ 31) (idx + value * scale)); cbn [andb]; [|split; [congruence|lia]].
  destruct (Z.ltb_spec (idx + value * scale) (2 ^ 31)); cbn [andb]; [|split; [congruence|lia]].
  split; [lia|intros _; discriminate].
Qed.
Lemma get_index_inverse : forall value idx scale size r, 0 <= idx < size -> get_index value idx scale size = Some r ->
  forall r', get_index (- value) r scale size = Some r' -> r' = idx.
Proof.
  intros value idx scale size r Hi E r' E'. apply get_index_spec in E. apply get_index_spec in E'.
  destruct E as [Hs ->], E' as [_ ->]. rewrite Zplus_mod_idemp_l.
  replace (idx + value * scale + - value * scale) with idx by ring. apply Z.mod_small. exact Hi.
Qed.
