(** Property theorems C55, C56, C91, C92 and C93: the mixed matrix commitment over a field Merkle tree.
    FieldMerkleSpec.v defines [acceptable] batches, the [addressed_row] of a matrix and [collide]. *)
From Coq Require Import List Arith Bool ZArith Lia.
From Verif Require Import FieldMerkleSpec FieldMerkleModel FieldMerkleProof3 FieldMerkleExtra.
Import ListNotations.
Open Scope nat_scope.

(** ** C55: commit, open, verify, for every batch and every index that addresses an existing row of every matrix. *)
Theorem C55_honest_openings_verify : forall {F P D : Type} (coords : F -> list P) (hash : list P -> D) (compress : D -> D -> D) (zero : D) (digest_eqb : D -> D -> bool),
  (forall d, digest_eqb d d = true) ->
  forall (leaves : list (list (list F))) (index : nat), acceptable leaves ->
  (forall m row, In m leaves -> addressed_row (list_max (map (@length _) leaves)) (length m) index row -> row < length m) ->
  exists root layers openings proof, mmcs_commit coords hash compress zero leaves = Some (root, layers) /\
    mmcs_open index leaves layers = Some (openings, proof) /\ length openings = length leaves /\
    (forall i m row, nth_error leaves i = Some m -> addressed_row (list_max (map (@length _) leaves)) (length m) index row -> nth_error openings i = nth_error m row) /\
    mmcs_verify coords hash compress digest_eqb root (map (@length _) leaves) index openings proof = Some true.
Proof. exact (fun F P D => round_trip (F := F) (P := P) (D := D)). Qed.
Print Assumptions C55_honest_openings_verify.

(** When the heights are powers of two, that is every index below the tallest height. *)
Theorem C55_power_of_two_heights : forall {F : Type} (leaves : list (list (list F))) (index : nat), leaves <> [] ->
  (forall m, In m leaves -> exists e, length m = Nat.pow 2 e) -> index < list_max (map (@length _) leaves) ->
  acceptable leaves /\
  (forall m row, In m leaves -> addressed_row (list_max (map (@length _) leaves)) (length m) index row -> row < length m).
Proof. exact (fun F => pow2_addressable (F := F)). Qed.
Print Assumptions C55_power_of_two_heights.

Definition test_hash (l : list Z) : Z := fold_left (fun a x => 31 * a + x + 1)%Z l 0%Z.
Definition test_compress (a b : Z) : Z := (3 * a + 5 * b + 7)%Z.
Definition test_batch : list (list (list Z)) := [[[1]; [2]]; [[3; 4]; [5; 6]; [7; 8]; [9; 10]]; [[11]; [12]]; [[13]; [14]; [15]; [16]]]%Z.
Example C55_nonvacuous :
  exists root layers, mmcs_commit (fun x : Z => [x]) test_hash test_compress 0%Z test_batch = Some (root, layers) /\ map (@length _) layers = [4; 2; 1] /\
    (forall index, In index [0; 1; 2; 3] -> exists openings proof, mmcs_open index test_batch layers = Some (openings, proof) /\ length proof = 2 /\
       mmcs_verify (fun x : Z => [x]) test_hash test_compress Z.eqb root [2; 4; 2; 4] index openings proof = Some true /\
       mmcs_verify (fun x : Z => [x]) test_hash test_compress Z.eqb root [2; 4; 2; 4] (S index) openings proof <> Some true) /\
    (exists proof, mmcs_open 2 test_batch layers = Some ([[2]; [7; 8]; [12]; [15]]%Z, proof)).
Proof.
  eexists _, _. split; [vm_compute; reflexivity|]. split; [reflexivity|]. split.
  - intros index [<-|[<-|[<-|[<-|[]]]]]; eexists _, _; (split; [vm_compute; reflexivity|]); (split; [reflexivity|]); (split; [vm_compute; reflexivity|]); vm_compute; intros [=].
  - eexists. vm_compute. reflexivity.
Qed.

(** ** C56: binding.  The collision is between the two verifications' own calls, at the same position. *)
Theorem C56_binding : forall {F P D : Type} (coords : F -> list P) (hash : list P -> D) (compress : D -> D -> D) (digest_eqb : D -> D -> bool) (degree : nat),
  (forall x y, digest_eqb x y = true <-> x = y) -> (forall x y : P, {x = y} + {x <> y}) ->
  (forall x, length (coords x) = degree) -> (forall x y, coords x = coords y -> x = y) ->
  forall (opened opened' : list (list F)), Forall2 (fun r r' => length r = length r') opened opened' ->
  forall (commitment : D) (heights : list nat) (index : nat) (proof proof' : list D) (e : nat),
  is_log e (list_max heights) -> length proof = e -> length proof' = e ->
  (opened <> opened' \/ proof <> proof') ->
  mmcs_verify coords hash compress digest_eqb commitment heights index opened proof = Some true ->
  mmcs_verify coords hash compress digest_eqb commitment heights index opened' proof' = Some true ->
  exists k c c', nth_error (mmcs_verify_calls coords hash compress heights index opened proof) k = Some c /\
                 nth_error (mmcs_verify_calls coords hash compress heights index opened' proof') k = Some c' /\ collide hash compress c c'.
Proof. exact (fun F P D => mmcs_binding (F := F) (P := P) (D := D)). Qed.
Print Assumptions C56_binding.

(** The test compression is not collision resistant: 3 a + 5 b. *)
Example C56_nonvacuous :
  mmcs_verify (fun x : Z => [x]) test_hash test_compress Z.eqb 71%Z [2; 1] 0 [[4]; [1]]%Z [7]%Z = Some false /\
  mmcs_verify (fun x : Z => [x]) test_hash test_compress Z.eqb 193%Z [2; 1] 0 [[4]; [2]]%Z [7]%Z = Some true /\
  mmcs_verify (fun x : Z => [x]) test_hash test_compress Z.eqb 193%Z [2; 1] 0 [[9]; [2]]%Z [4]%Z = Some true /\
  is_log 1 2 /\
  mmcs_verify_calls (fun x : Z => [x]) test_hash test_compress [2; 1] 0 [[4]; [2]]%Z [7]%Z = [CallHash [4]; CallCompress 5 7; CallHash [2]; CallCompress 57 3]%Z /\
  mmcs_verify_calls (fun x : Z => [x]) test_hash test_compress [2; 1] 0 [[9]; [2]]%Z [4]%Z = [CallHash [9]; CallCompress 10 4; CallHash [2]; CallCompress 57 3]%Z.
Proof.
  assert (L : is_log 1 2) by apply is_log_pow2.
  split; [vm_compute; reflexivity|]. split; [vm_compute; reflexivity|]. split; [vm_compute; reflexivity|]. split; [exact L|]. split; vm_compute; reflexivity.
Qed.

(** ** C91: an acceptable batch cannot be opened at every index below its tallest height. *)
Theorem C91_padded_rows_refuted : forall {P D : Type} (coords : nat -> list P) (hash : list P -> D) (compress : D -> D -> D) (zero : D),
  exists root layers, mmcs_commit coords hash compress zero [column 8; column 3] = Some (root, layers) /\ mmcs_open 7 [column 8; column 3] layers = None.
Proof. exact (fun P D => padded_row_undefined (P := P) (D := D)). Qed.
Print Assumptions C91_padded_rows_refuted.
Example C91_nonvacuous : acceptable [column 8; column 3].
Proof. exact batch_acceptable. Qed.

(** ** C92: binding needs the caller to check widths and the proof length. *)
Theorem C92_widths_unchecked_refuted : forall {F P D : Type} (coords : F -> list P) (hash : list P -> D) (compress : D -> D -> D) (digest_eqb : D -> D -> bool) (commitment : D) (h index : nat) (a b c : F) (proof : list D),
  mmcs_verify coords hash compress digest_eqb commitment [h; h] index [[a; b]; [c]] proof =
  mmcs_verify coords hash compress digest_eqb commitment [h; h] index [[a]; [b; c]] proof.
Proof. exact (fun F P D => widths_unchecked (F := F) (P := P) (D := D)). Qed.
Print Assumptions C92_widths_unchecked_refuted.
Theorem C92_short_proof_refuted : forall {F P D : Type} (coords : F -> list P) (hash : list P -> D) (compress : D -> D -> D) (digest_eqb : D -> D -> bool) (a b : list F) (index : nat),
  (forall d, digest_eqb d d = true) ->
  mmcs_verify coords hash compress digest_eqb (hash (flat_map coords a)) [8; 1] index [a; b] [] = Some true.
Proof. exact (fun F P D => short_proof_accepted (F := F) (P := P) (D := D)). Qed.
Print Assumptions C92_short_proof_refuted.
Example C92_nonvacuous :
  mmcs_verify (fun x : Z => [x]) test_hash test_compress Z.eqb (test_hash [1; 2; 3]%Z) [1; 1] 0 [[1; 2]; [3]]%Z [] = Some true /\
  mmcs_verify (fun x : Z => [x]) test_hash test_compress Z.eqb (test_hash [1; 2; 3]%Z) [1; 1] 0 [[1]; [2; 3]]%Z [] = Some true.
Proof. split; vm_compute; reflexivity. Qed.

(** ** C93: with the debug check compiled out, a matrix can be left out of the commitment. *)
Theorem C93_same_class_refuted : forall {F P D : Type} (coords : F -> list P) (hash : list P -> D) (compress : D -> D -> D) (zero : D) (a b c d : list F) (m m' : list (list F)),
  length m = 3 -> length m' = 3 ->
  mmcs_commit coords hash compress zero [[a; b; c; d]; m] = mmcs_commit coords hash compress zero [[a; b; c; d]; m'].
Proof. exact (fun F P D => same_class_not_committed (F := F) (P := P) (D := D)). Qed.
Print Assumptions C93_same_class_refuted.
Example C93_nonvacuous : exists r, mmcs_commit (fun x : Z => [x]) test_hash test_compress 0%Z [[[1]; [2]; [3]; [4]]; [[5]; [6]; [7]]]%Z = Some r.
Proof. eexists. vm_compute. reflexivity. Qed.
