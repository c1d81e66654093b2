(** Properties C254-C261: random generators, sampling of field elements, blinding and rotations. *)
From Coq Require Import ZArith List Bool Lia.
From Verif Require Import BigIntModel BigIntSpec PrimeFieldModel PrimeFieldSpec BufferModel BufferSpec RngModel RngSpec
  RngProof RngProof2 RngProof3 RngExtra.
Import ListNotations.
Open Scope Z_scope.

(** ** C254: the XORShift stream *)
Theorem C254_xorshift_stream : forall seed s, byte_string 16 seed -> exists s',
  xs_set_seed seed s = (true, s') /\
  forall v, xorshift128 v -> (forall i, (i < 4)%nat -> v i = le_word seed i) ->
  forall n, exists s'', draw xs_next n s' = Some (map v (seq 4 n), s'').
Proof. exact xs_stream. Qed.
Print Assumptions C254_xorshift_stream.

(** Four equal consecutive outputs at the same position come from equal seeds. *)
Theorem C254_xorshift_no_merge : forall s1 s2 seed1 seed2 st1 st2 n, byte_string 16 seed1 -> byte_string 16 seed2 ->
  xs_set_seed seed1 s1 = (true, st1) -> xs_set_seed seed2 s2 = (true, st2) ->
  forall pre1 pre2 last t1 t2, length pre1 = n -> length pre2 = n -> length last = 4%nat ->
  draw xs_next (n + 4) st1 = Some (pre1 ++ last, t1) -> draw xs_next (n + 4) st2 = Some (pre2 ++ last, t2) ->
  seed1 = seed2.
Proof. exact xs_no_merge. Qed.
Print Assumptions C254_xorshift_no_merge.

Theorem C254_xorshift_never_zero_partial : forall s seed st n pre t, byte_string 16 seed -> seed <> repeat 0 16 ->
  xs_set_seed seed s = (true, st) -> length pre = n -> draw xs_next (n + 4) st <> Some (pre ++ [0; 0; 0; 0], t).
Proof. exact xs_nonzero. Qed.
Print Assumptions C254_xorshift_never_zero_partial.

(** The zero seed is accepted and yields zeros for ever. *)
Theorem C254_zero_seed_refuted : forall s n, exists s' s'',
  xs_set_seed (repeat 0 16) s = (true, s') /\ draw xs_next n s' = Some (repeat 0 n, s'').
Proof. exact xs_zero. Qed.
Print Assumptions C254_zero_seed_refuted.

(** The first words of the unit test's stream. *)
Example C254_nonvacuous :
  let seed := [89; 98; 190; 93; 118; 61; 49; 141; 23; 219; 55; 50; 84; 6; 188; 229] in
  option_map fst (next_u64 xs_next (snd (xs_set_seed seed xs_default))) = Some 5719644765813611536.
Proof. vm_compute. reflexivity. Qed.

(** ** C255: saving and restoring a generator *)
Theorem C255_xorshift_save_restore : forall s s0 b b', words 4 [xs_x s; xs_y s; xs_z s; xs_w s] -> in_range b ->
  xs_write s b = (true, b') -> xs_read (set_off (off b) b') s0 = (true, s, b').
Proof. exact xs_save_restore. Qed.
Print Assumptions C255_xorshift_save_restore.

Theorem C255_xorshift_layout : forall s b, words 4 [xs_x s; xs_y s; xs_z s; xs_w s] -> in_range b ->
  let d := concat (map (int_bytes Little 4) [xs_x s; xs_y s; xs_z s; xs_w s]) in
  length d = 16%nat /\ (fits b d -> xs_write s b = (true, put b d)) /\ (~ fits b d -> fst (xs_write s b) = false).
Proof. exact xs_layout. Qed.
Print Assumptions C255_xorshift_layout.

Theorem C255_chacha_save_restore : forall s s0 b b',
  0 <= cc_index s < 2 ^ 64 /\ words 16 (cc_input s) /\ byte_string 64 (cc_output s) -> in_range b ->
  cc_write s b = (true, b') -> cc_read (set_off (off b) b') s0 = (true, s, b').
Proof. exact cc_save_restore. Qed.
Print Assumptions C255_chacha_save_restore.

Theorem C255_chacha_layout : forall s b,
  0 <= cc_index s < 2 ^ 64 /\ words 16 (cc_input s) /\ byte_string 64 (cc_output s) -> in_range b ->
  let d := int_bytes Little 8 (cc_index s) ++ concat (map (int_bytes Little 4) (cc_input s)) ++ cc_output s in
  length d = 136%nat /\ (fits b d -> cc_write s b = (true, put b d)) /\ (~ fits b d -> fst (cc_write s b) = false).
Proof. exact cc_layout. Qed.
Print Assumptions C255_chacha_layout.

Theorem C255_failed_read_keeps_state : (forall b s s' b', xs_read b s = (false, s', b') -> s' = s) /\
  (forall b s s' b', cc_read b s = (false, s', b') -> s' = s).
Proof. exact read_failure. Qed.
Print Assumptions C255_failed_read_keeps_state.

Example C255_nonvacuous :
  exists b', xs_write xs_default (Buf [] 0 Big true) = (true, b') /\ firstn 4 (bytes b') = [237; 94; 173; 11] /\ end_ b' = Big.
Proof. eexists. split; [vm_compute; reflexivity|]. split; vm_compute; reflexivity. Qed.

(** ** C256: the ChaCha20 stream *)
Theorem C256_chacha_stream : forall core, block_function core -> forall ji jo key, length ji = 16%nat -> byte_string 32 key ->
  exists s, cc_set_seed key (cc_new ji jo) = (true, s) /\
  forall n, exists s', draw (cc_next core) n s = Some (map (chacha_word core key) (seq 0 n), s').
Proof. exact chacha_stream. Qed.
Print Assumptions C256_chacha_stream.

Theorem C256_chacha_default : forall core, block_function core -> forall ji jo, length ji = 16%nat ->
  forall n, exists s', draw (cc_next core) n (cc_new ji jo) = Some (map (chacha_word core (repeat 0 32)) (seq 0 n), s').
Proof. exact chacha_default. Qed.
Print Assumptions C256_chacha_default.

(** No block input is used twice in 2^64 blocks. *)
Theorem C256_chacha_inputs_distinct : forall key1 key2 k1 k2, byte_string 32 key1 -> byte_string 32 key2 ->
  0 <= k1 < 2 ^ 64 -> 0 <= k2 < 2 ^ 64 -> chacha_block_input key1 k1 = chacha_block_input key2 k2 ->
  k1 = k2 /\ map (le_word key1) (seq 0 8) = map (le_word key2) (seq 0 8).
Proof. exact chacha_inputs_distinct. Qed.
Print Assumptions C256_chacha_inputs_distinct.

(** The block function of the standard, and the first value of the unit test. *)
Example C256_nonvacuous : block_function chacha20_block /\
  option_map fst (next_u64 (cc_next chacha20_block) (cc_new (repeat 0 16) (repeat 0 64))) = Some 10393729187455219830.
Proof. split; [exact chacha20_block_ok|vm_compute; reflexivity]. Qed.

(** ** C257: setting the seed *)
Theorem C257_wrong_size_rejected : (forall seed s, length seed <> 16%nat -> xs_set_seed seed s = (false, s)) /\
  (forall seed s, length seed <> 32%nat -> cc_set_seed seed s = (false, s)).
Proof. exact seed_sizes. Qed.
Print Assumptions C257_wrong_size_rejected.

(** What SetSeed in mid-stream does: the block in use is finished, and the counter goes on. *)
Theorem C257_chacha_reseed_partial : forall core, block_function core -> forall ji jo k1 k2 n m, length ji = 16%nat ->
  byte_string 32 k1 -> byte_string 32 k2 -> exists s1 l1 s2 s3 s4,
  cc_set_seed k1 (cc_new ji jo) = (true, s1) /\ draw (cc_next core) n s1 = Some (l1, s2) /\
  cc_set_seed k2 s2 = (true, s3) /\
  draw (cc_next core) m s3 =
    Some (map (fun i => chacha_word core (if (i / 16 <? (n + 15) / 16)%nat then k1 else k2) i) (seq n m), s4).
Proof. exact chacha_reseed. Qed.
Print Assumptions C257_chacha_reseed_partial.

(** So the stream after SetSeed is not the stream of the seed. *)
Theorem C257_chacha_reseed_refuted : exists core ji jo k1 k2 n s1 l1 s2 s3 s4 v w f f',
  block_function core /\ length ji = 16%nat /\ byte_string 32 k1 /\ byte_string 32 k2 /\
  cc_set_seed k1 (cc_new ji jo) = (true, s1) /\ draw (cc_next core) n s1 = Some (l1, s2) /\
  cc_set_seed k2 s2 = (true, s3) /\ cc_next core s3 = Some (v, s4) /\
  cc_set_seed k2 (cc_new ji jo) = (true, f) /\ cc_next core f = Some (w, f') /\ v <> w.
Proof. exact reseed_not_fresh. Qed.
Print Assumptions C257_chacha_reseed_refuted.

Example C257_nonvacuous : byte_string 32 (repeat 1 32) /\ byte_string 32 (repeat 7 32) /\ length (repeat 0 16) = 16%nat.
Proof. repeat split; repeat constructor; lia. Qed.

(** ** C258: a restored index is not checked *)
Theorem C258_restored_index_partial : forall core b s s' b', cc_read b s = (true, s', b') -> 0 <= cc_index s' ->
  ((forall n, draw (cc_next core) n s' <> None) <-> cc_index s' <= 16).
Proof. exact restored_index_iff. Qed.
Print Assumptions C258_restored_index_partial.

Theorem C258_restored_index_refuted : exists b s s' b', in_range b /\ Forall (fun x => 0 <= x < 256) (bytes b) /\
  cc_read b s = (true, s', b') /\ forall core, cc_next core s' = None.
Proof. exact restored_index_out_of_bounds. Qed.
Print Assumptions C258_restored_index_refuted.

Example C258_nonvacuous : exists s' b', cc_read (Buf (16 :: repeat 0 135) 0 Native false) (CC 0 [] []) = (true, s', b') /\
  cc_index s' = 16.
Proof. eexists. eexists. split; vm_compute; reflexivity. Qed.

(** ** C259: field elements from random words *)
Theorem C259_from_uint512 : forall m, limbs64 4 m -> 1 < val64 m -> Z.odd (val64 m) = true ->
  forall l, limbs64 8 l -> represents 4 (val64 m) (from_uint512 (mk_config m) l) (val64 l).
Proof. exact from_uint512_rep. Qed.
Print Assumptions C259_from_uint512.

Theorem C259_from_uint512_bytes : forall m, limbs64 4 m -> 1 < val64 m -> Z.odd (val64 m) = true ->
  forall l, byte_string 64 l -> represents 4 (val64 m) (from_uint512_bytes (mk_config m) l) (val 8 l).
Proof. exact from_uint512_bytes_rep. Qed.
Print Assumptions C259_from_uint512_bytes.

Theorem C259_from_uint128 : forall m, limbs64 4 m -> 1 < val64 m -> Z.odd (val64 m) = true ->
  forall v, 0 <= v < 2 ^ 128 -> v < val64 m -> represents 4 (val64 m) (from_uint128 (mk_config m) v) v.
Proof. exact from_uint128_rep. Qed.
Print Assumptions C259_from_uint128.

(** Generate reads sixteen words of the stream and returns the 512-bit number they form, modulo p. *)
Theorem C259_generate : forall m, limbs64 4 m -> 1 < val64 m -> Z.odd (val64 m) = true ->
  forall (S : Type) (next : S -> option (Z * S)) s ws s', Forall (fun w => 0 <= w < 2 ^ 32) ws ->
  draw next 16 s = Some (ws, s') ->
  exists e, generate next (mk_config m) s = Some (e, s') /\ represents 4 (val64 m) e (val 32 ws).
Proof. exact (fun m H1 H2 H3 S => @generate_rep m H1 H2 H3 S). Qed.
Print Assumptions C259_generate.

Example C259_nonvacuous : limbs64 4 [13; 0; 0; 2 ^ 63] /\ Z.odd (val64 [13; 0; 0; 2 ^ 63]) = true /\
  limbs64 8 (repeat (2 ^ 64 - 1) 8) /\ exists ws s', draw xs_next 16 xs_default = Some (ws, s') /\ Forall (fun w => 0 <= w < 2 ^ 32) ws.
Proof.
  split; [split; [reflexivity|repeat constructor; lia]|]. split; [reflexivity|].
  split; [split; [reflexivity|repeat constructor; lia]|].
  eexists. eexists. split; [vm_compute; reflexivity|]. repeat constructor; lia.
Qed.

(** ** C260: blinding *)
Theorem C260_blind_partial : forall (F S : Type) (gen : S -> option (F * S)) factors (last : bool) evals s out s',
  Z.of_nat (length evals) < 2 ^ 32 -> 0 <= factors < 2 ^ 32 - 1 ->
  let rows := (Z.to_nat factors + (if last then 1 else 0))%nat in
  blind gen factors last evals s = Some (true, out, s') ->
  (rows <= length evals)%nat /\ length out = length evals /\
  (forall i, (i < length evals - rows)%nat -> nth_error out i = nth_error evals i) /\
  draw gen rows s = Some (skipn (length evals - rows) out, s').
Proof. exact @blind_rows. Qed.
Print Assumptions C260_blind_partial.

Theorem C260_blind_succeeds_partial : forall (F S : Type) (gen : S -> option (F * S)) factors (last : bool) evals s,
  Z.of_nat (length evals) < 2 ^ 32 -> 0 <= factors < 2 ^ 32 - 1 ->
  let rows := factors + (if last then 1 else 0) in
  (Z.of_nat (length evals) < rows -> blind gen factors last evals s = Some (false, evals, s)) /\
  (rows <= Z.of_nat (length evals) -> forall l s', draw gen (Z.to_nat rows) s = Some (l, s') ->
     blind gen factors last evals s = Some (true, firstn (length evals - Z.to_nat rows) evals ++ l, s')).
Proof. exact @blind_spec. Qed.
Print Assumptions C260_blind_succeeds_partial.

(** With the largest number of factors and the last row included, nothing is blinded. *)
Theorem C260_blind_wraps_refuted : exists (gen : nat -> option (Z * nat)) factors evals s, 0 <= factors < 2 ^ 32 /\
  (0 < length evals)%nat /\ blind gen factors true evals s = Some (true, evals, s).
Proof. exact blind_wraps. Qed.
Print Assumptions C260_blind_wraps_refuted.

Example C260_nonvacuous : blind (fun s => Some (10 + Z.of_nat s, S s)) 2 true [1; 2; 3; 4; 5] 0%nat =
  Some (true, [1; 2; 10; 11; 12], 3%nat).
Proof. vm_compute. reflexivity. Qed.

(** ** C261: rotations *)
Theorem C261_get_index : forall value idx scale size r, get_index value idx scale size = Some r ->
  0 < size /\ r = (idx + value * scale) mod size.
Proof. exact get_index_spec. Qed.
Print Assumptions C261_get_index.

Theorem C261_get_index_defined : forall value idx scale size,
  get_index value idx scale size <> None <->
  0 < size /\ - 2 ^ 31 <= value * scale < 2 ^ 31 /\ - 2 ^ 31 <= idx + value * scale < 2 ^ 31.
Proof. exact get_index_defined. Qed.
Print Assumptions C261_get_index_defined.

Theorem C261_get_index_inverse : forall value idx scale size r, 0 <= idx < size -> get_index value idx scale size = Some r ->
  forall r', get_index (- value) r scale size = Some r' -> r' = idx.
Proof. exact get_index_inverse. Qed.
Print Assumptions C261_get_index_inverse.

Example C261_nonvacuous : get_index (-3) 1 4 8 = Some 5 /\ get_index 3 5 4 8 = Some 1 /\ get_index (2 ^ 31 - 1) 1 1 8 = None.
Proof. repeat split; vm_compute; reflexivity. Qed.
