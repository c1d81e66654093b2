(** Property theorems C20-C23 for the serialisation buffers. *)
From Coq Require Import ZArith List Bool Lia.
From Verif Require Import BufferModel BufferSpec BufferProof BufferExtra.
Import ListNotations.
Open Scope Z_scope.

(** C20. Writing an integer anywhere in a buffer: it succeeds exactly when the bytes fit, stores the bytes of
    the integer in the order of the endianness, and touches no other byte. *)
Theorem C20_write_int_layout : forall b o w v, 0 <= o -> len (bytes b) < 2 ^ 64 ->
  let n := Z.of_nat (size_of w) in
  if (o + n <? 2 ^ 64) && (growable b || (o + n <=? len (bytes b))) then
    exists b', write_int_at b o w v = (true, b') /\ off b' = o + n /\ end_ b' = end_ b /\ growable b' = growable b /\
      len (bytes b') = Z.max (len (bytes b)) (o + n) /\
      (forall i, nth i (bytes b') 0 =
        if (o <=? Z.of_nat i) && (Z.of_nat i <? o + n) then nth (i - Z.to_nat o) (int_bytes (end_ b) (size_of w) v) 0
        else nth i (bytes b) 0)
  else write_int_at b o w v = (false, b).
Proof. exact write_int_layout. Qed.
Print Assumptions C20_write_int_layout.

Theorem C20_int_roundtrip : forall b o w v b', 0 <= o -> len (bytes b) < 2 ^ 64 ->
  0 <= v < 256 ^ Z.of_nat (size_of w) ->
  write_int_at b o w v = (true, b') -> read_int_at b' o w = (Some v, b').
Proof. exact read_int_after_write. Qed.
Print Assumptions C20_int_roundtrip.

Example C20_nonvacuous : let b := Buf [9; 9; 9; 9; 9; 9] 3 Big false in
  write_int_at b 1 W4 305419896 = (true, Buf [9; 18; 52; 86; 120; 9] 5 Big false) /\
  fst (read_int_at (Buf [9; 18; 52; 86; 120; 9] 5 Big false) 1 W4) = Some 305419896 /\
  write_int_at b 3 W4 1 = (false, b).
Proof. vm_compute. repeat split. Qed.

(** C21. *)
Theorem C21_composite_layout_partial : forall t v b, narrow t = true -> valid t v -> in_range b ->
  (fits b (encoding (end_ b) t v) -> write t v b = (true, put b (encoding (end_ b) t v))) /\
  (~ fits b (encoding (end_ b) t v) -> fst (write t v b) = false).
Proof. exact composite_layout. Qed.
Print Assumptions C21_composite_layout_partial.

Theorem C21_composite_roundtrip_partial : forall t v b b', narrow t = true -> valid t v -> in_range b ->
  write t v b = (true, b') -> read t (set_off (off b) b') = (Some v, b').
Proof. exact composite_roundtrip. Qed.
Print Assumptions C21_composite_roundtrip_partial.

(** The same for bytes that come from anywhere: whatever precedes and follows the encoding. *)
Theorem C21_decode_partial : forall t v, narrow t = true -> valid t v -> forall b pre post,
  bytes b = pre ++ encoding (end_ b) t v ++ post -> off b = len pre -> len (bytes b) < 2 ^ 64 ->
  read t b = (Some v, set_off (len pre + len (encoding (end_ b) t v)) b).
Proof. intros t v Hn Hv. exact (read_encoding t Hn v Hv). Qed.
Print Assumptions C21_decode_partial.

Theorem C21_estimate_size_partial : forall e t, narrow t = true -> fixed_matrices t = true -> forall v, valid t v ->
  len (encoding e t v) < 2 ^ 31 -> estimate t v = len (encoding e t v).
Proof. exact estimate_spec. Qed.
Print Assumptions C21_estimate_size_partial.

(** Strings of wide characters are truncated: the byte count written is the character count. *)
Theorem C21_wide_string_refuted : exists v b b' r, valid (TStr W2) v /\ in_range b /\ write (TStr W2) v b = (true, b') /\
  fst (read (TStr W2) (set_off (off b) b')) = Some r /\ r <> v.
Proof. exact wide_string_wrong. Qed.
Print Assumptions C21_wide_string_refuted.

(** EstimateSize of an array accumulates in an int. *)
Theorem C21_estimate_size_refuted : exists t v, narrow t = true /\ fixed_matrices t = true /\ valid t v /\
  forall e, len (encoding e t v) < 2 ^ 32 /\ estimate t v <> len (encoding e t v).
Proof. exact estimate_array_wrong. Qed.
Print Assumptions C21_estimate_size_refuted.

Example C21_nonvacuous : let t := TPair (TVec (TStr W1)) (TArr 2 (TInt W2)) in
  let v := ([[104; 105]; []], [513; 7]) in let b := Buf [1; 2; 3] 1 Little true in
  narrow t = true /\ valid t v /\ in_range b /\ exists b', write t v b = (true, b') /\
  len (bytes b') = 1 + estimate t v /\ fst (read t (set_off 1 b')) = Some v.
Proof.
  cbv zeta. split; [reflexivity|]. split; [cbn; unfold len; cbn; repeat split; repeat constructor; lia|].
  split; [split; unfold len; cbn; lia|]. eexists. split; [vm_compute; reflexivity|]. split; vm_compute; reflexivity.
Qed.

(** C22. Reading and writing byte ranges. *)
Theorem C22_read_bytes : forall b o n, 0 <= o -> 0 <= n -> len (bytes b) < 2 ^ 64 ->
  if o + n <=? len (bytes b) then
    exists d, read_bytes_at b o n = (Some d, set_off (o + n) b) /\ len d = n /\
      (forall i, Z.of_nat i < n -> nth i d 0 = nth (Z.to_nat o + i) (bytes b) 0)
  else read_bytes_at b o n = (None, b).
Proof. exact read_bytes_at_spec. Qed.
Print Assumptions C22_read_bytes.

Theorem C22_write_bytes : forall b o d, 0 <= o -> len (bytes b) < 2 ^ 64 ->
  if (o + len d <? 2 ^ 64) && (growable b || (o + len d <=? len (bytes b))) then
    exists b', write_bytes_at b o d = (true, b') /\ off b' = o + len d /\ end_ b' = end_ b /\ growable b' = growable b /\
      len (bytes b') = Z.max (len (bytes b)) (o + len d) /\
      (forall i, nth i (bytes b') 0 =
        if (o <=? Z.of_nat i) && (Z.of_nat i <? o + len d) then nth (i - Z.to_nat o) d 0 else nth i (bytes b) 0)
  else write_bytes_at b o d = (false, b).
Proof. exact write_bytes_at_spec. Qed.
Print Assumptions C22_write_bytes.

(** ReadPtrAt, when the byte count does not wrap. *)
Theorem C22_read_ptr_partial : forall b o s n, 0 <= o -> 0 < s -> 0 <= n -> s * n < 2 ^ 64 -> len (bytes b) < 2 ^ 64 ->
  if o + s * n <=? len (bytes b) then read_ptr_at b o s n = (Some (o, s * n), set_off (o + s * n) b)
  else read_ptr_at b o s n = (None, b).
Proof. exact read_ptr_ok. Qed.
Print Assumptions C22_read_ptr_partial.

(** ReadPtrAt hands out a pointer to more elements than the buffer holds when sizeof(T) * num wraps. *)
Theorem C22_read_ptr_refuted : exists b o s n o' m b', 0 <= o /\ 0 < s < 2 ^ 64 /\ 0 <= n < 2 ^ 64 /\
  read_ptr_at b o s n = (Some (o', m), b') /\ len (bytes b) < o' + m.
Proof. exact read_ptr_overflow. Qed.
Print Assumptions C22_read_ptr_refuted.

(** A composite write that fails half-way has already modified the buffer. *)
Theorem C22_failed_composite_write_refuted : exists t v b b', valid t v /\ in_range b /\
  write t v b = (false, b') /\ bytes b' <> bytes b.
Proof. exact composite_write_not_atomic. Qed.
Print Assumptions C22_failed_composite_write_refuted.

Example C22_nonvacuous : let b := Buf [1; 2; 3; 4] 0 Native false in
  read_bytes_at b 1 3 = (Some [2; 3; 4], set_off 4 b) /\ read_bytes_at b 2 3 = (None, b) /\
  read_bytes_at b (2 ^ 64 - 1) 2 = (None, b) /\ write_bytes_at b (2 ^ 64 - 1) [5; 6] = (false, b) /\
  read_ptr_at b 0 2 2 = (Some (0, 4), set_off 4 b).
Proof. vm_compute. repeat split. Qed.

(** C23. Write(a, b, ...) at the cursor. *)
Theorem C23_write_many : forall l, Forall (fun x => narrow (projT1 x) = true /\ valid (projT1 x) (projT2 x)) l ->
  forall b, in_range b -> let d := concat (map (fun x => encoding (end_ b) (projT1 x) (projT2 x)) l) in
  (fits b d -> write_many l b = (true, put b d)) /\ (~ fits b d -> fst (write_many l b) = false).
Proof. exact write_many_writes. Qed.
Print Assumptions C23_write_many.

(** WriteManyAt with one argument. *)
Theorem C23_write_many_at_single_partial : forall t v o b, narrow t = true -> valid t v -> in_range (set_off o b) ->
  fits (set_off o b) (encoding (end_ b) t v) ->
  write_many_at o [existT _ t v] b = (true, put (set_off o b) (encoding (end_ b) t v)).
Proof. exact write_many_at_single. Qed.
Print Assumptions C23_write_many_at_single_partial.

(** With two arguments the second overwrites the first. *)
Theorem C23_write_many_at_refuted : exists o l b b', in_range (set_off o b) /\
  Forall (fun x => narrow (projT1 x) = true /\ valid (projT1 x) (projT2 x)) l /\
  fits (set_off o b) (concat (map (fun x => encoding (end_ b) (projT1 x) (projT2 x)) l)) /\
  write_many_at o l b = (true, b') /\
  b' <> put (set_off o b) (concat (map (fun x => encoding (end_ b) (projT1 x) (projT2 x)) l)).
Proof. exact write_many_at_wrong. Qed.
Print Assumptions C23_write_many_at_refuted.

Example C23_nonvacuous :
  write_many [existT _ (TInt W2) 258; existT _ (TInt W1) 7] (Buf [0; 0; 0; 9] 0 Big false) = (true, Buf [1; 2; 7; 9] 3 Big false) /\
  snd (write_many_at 0 [existT _ (TInt W2) 258; existT _ (TInt W1) 7] (Buf [0; 0; 0; 9] 0 Big false)) = Buf [7; 2; 0; 9] 1 Big false.
Proof. vm_compute. split; reflexivity. Qed.
