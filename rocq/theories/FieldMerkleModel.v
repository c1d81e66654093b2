(** Model of the field Merkle tree and its mixed matrix commitment scheme:
    tachyon/crypto/commitments/merkle_tree/field_merkle_tree/field_merkle_tree.h (FM) and field_merkle_tree_mmcs.h (MM).

    Simplifications.
    - A matrix is the list of its rows.  The number of columns is the length of a row.
    - [hash], [compress] and the zero digest are parameters; an extension field element is flattened into its coordinates by [coords] (the identity singleton for a prime field).
    - The packed hasher and compressor used on full chunks of PackedPrimeField::N rows (FM:262-275, 308-339, 373-394) are assumed to compute, lane by lane, what the scalar ones do, so each row of a layer is computed independently of the chunking.
    - base::StableSort (base/sort.h:22-26, powersort) is modelled by its contract: [stable_sort] is the insertion sort that keeps equal keys in order.
    - Sizes are natural numbers; none of the functions can overflow a size_t because every size is at most twice the size of a vector in memory.
    - The CUDA path is not modelled.
    [None] stands for a failed CHECK or an access outside a vector or a matrix. *)
From Coq Require Import List Arith Bool.
From Verif Require Import FieldMerkleSpec.
Import ListNotations.
Open Scope nat_scope.

(** Stable sort by decreasing key: base/sort.h:22-26 with the reversed comparisons of FM:158-168 and MM:73-83. *)
Section Sort.
  Context {A : Type} (key : A -> nat).
  Fixpoint insert_sorted (a : A) (l : list A) : list A :=
    match l with
    | [] => [a]
    | b :: r => if key a <? key b then b :: insert_sorted a r else a :: l
    end.
  Fixpoint stable_sort (l : list A) : list A :=
    match l with [] => [] | a :: r => insert_sorted a (stable_sort r) end.
End Sort.

(** absl::bit_ceil and base::bits::Log2Ceiling (base/bits.h), for arguments >= 1. *)
Definition log2_ceiling (n : nat) : nat := Nat.log2_up n.
Definition bit_ceil (n : nat) : nat := Nat.pow 2 (log2_ceiling n).

(** base::CreateVector / base::Map with a callback that may fail. *)
Fixpoint map_opt {A B : Type} (f : A -> option B) (l : list A) : option (list B) :=
  match l with
  | [] => Some []
  | a :: r => match f a, map_opt f r with Some b, Some bs => Some (b :: bs) | _, _ => None end
  end.

(** The length of the longest prefix satisfying [f]: the counting loops at FM:206-213, FM:228-236 and MM:222-236 (CountLayers). *)
Fixpoint count_prefix {A : Type} (f : A -> bool) (l : list A) : nat :=
  match l with [] => 0 | a :: r => if f a then S (count_prefix f r) else 0 end.

Section Tree.
  Context {F P D : Type}.
  Variables (coords : F -> list P) (hash : list P -> D) (compress : D -> D -> D) (zero : D).
  Notation matrix := (list (list F)).

  (** GetRowAsPrimeFieldVector, FM:401-425. *)
  Definition row_values (ms : list matrix) (row : nat) : option (list P) :=
    match map_opt (fun m : matrix => nth_error m row) ms with
    | Some rs => Some (flat_map coords (concat rs))
    | None => None
    end.
  Definition row_hash (ms : list matrix) (row : nat) : option D :=
    match row_values ms row with Some v => Some (hash v) | None => None end.

  (** CreateFirstDigestLayer, FM:248-283. *)
  Definition create_first_digest_layer (tallest : list matrix) : option (list D) :=
    match tallest with
    | [] => None
    | m :: _ =>
        let max_rows := length m in
        match map_opt (row_hash tallest) (seq 0 max_rows) with
        | Some ds => Some (ds ++ repeat zero (bit_ceil max_rows - max_rows))
        | None => None
        end
    end.

  (** The pair of children of node i in the previous layer, compressed: FM:351-355, 366-370, 391-394. *)
  Definition compress_pair (prev : list D) (i : nat) : option D :=
    match nth_error prev (2 * i), nth_error prev (2 * i + 1) with
    | Some a, Some b => Some (compress a b)
    | _, _ => None
    end.
  (** Compress, FM:375-399. *)
  Definition compress_layer (prev : list D) : option (list D) := map_opt (compress_pair prev) (seq 0 (length prev / 2)).

  (** One injected node, FM:350-358; one padded node, FM:366-372. *)
  Definition inject_node (prev : list D) (ms : list matrix) (i : nat) : option D :=
    match compress_pair prev i, row_hash ms i with Some a, Some b => Some (compress a b) | _, _ => None end.
  Definition pad_node (prev : list D) (i : nat) : option D :=
    match compress_pair prev i with Some a => Some (compress a zero) | None => None end.

  (** CompressAndInject, FM:285-373. *)
  Definition compress_and_inject (prev : list D) (ms : list matrix) : option (list D) :=
    match ms with
    | [] => compress_layer prev
    | m :: _ =>
        let next_rows := length m in
        let next_rows_padded := bit_ceil next_rows in
        match map_opt (inject_node prev ms) (seq 0 next_rows), map_opt (pad_node prev) (seq next_rows (next_rows_padded - next_rows)) with
        | Some a, Some b => Some (a ++ b)
        | _, _ => None
        end
    end.

  (** The while loop of DoBuildCpu, FM:223-244; the fuel is the size of the first layer, which the halving cannot exhaust. *)
  Fixpoint layers_loop (fuel : nat) (prev : list D) (remaining : list matrix) : option (list (list D)) :=
    if length prev =? 1 then Some [prev] else
    match fuel with
    | O => None
    | S fuel' =>
        let next_layer_rows := length prev / 2 in
        let n := count_prefix (fun m : matrix => bit_ceil (length m) =? next_layer_rows) remaining in
        match compress_and_inject prev (firstn n remaining) with
        | Some next => match layers_loop fuel' next (skipn n remaining) with Some ls => Some (prev :: ls) | None => None end
        | None => None
        end
    end.

  (** DoBuildCpu, FM:181-246, without the debug-only check (see [heights_agree] in FieldMerkleSpec.v). *)
  Definition build (leaves : list matrix) : option (list (list D)) :=
    let sorted := stable_sort (fun m : matrix => length m) leaves in
    match sorted with
    | [] => None
    | m :: rest =>
        let n := S (count_prefix (fun m' : matrix => length m =? length m') rest) in
        match create_first_digest_layer (firstn n sorted) with
        | Some first => layers_loop (length first) first (skipn n sorted)
        | None => None
        end
    end.

  (** GetRoot, FM:150: digest_layers_.back()[0]. *)
  Definition get_root (layers : list (list D)) : option D := nth_error (last layers []) 0.

  (** DoCommit, MM:94-111. *)
  Definition mmcs_commit (matrices : list matrix) : option (D * list (list D)) :=
    match build matrices with
    | Some layers => match get_root layers with Some r => Some (r, layers) | None => None end
    | None => None
    end.

  (** GetMaxRowSize, mixed_matrix_commitment_scheme.h:108-119. *)
  Definition max_row_size (matrices : list matrix) : nat := list_max (map (fun m : matrix => length m) matrices).

  (** [(index >> i) ^ 1]: the comment at MM:157-158. *)
  Definition flip_low_bit (v : nat) : nat := if Nat.even v then v + 1 else v - 1.

  (** DoCreateOpeningProof, MM:134-164.  Shifts are divisions by powers of two. *)
  Definition mmcs_open (index : nat) (leaves : list matrix) (layers : list (list D)) : option (list (list F) * list D) :=
    let log_max := log2_ceiling (max_row_size leaves) in
    match map_opt (fun m : matrix => nth_error m (index / Nat.pow 2 (log_max - log2_ceiling (length m)))) leaves,
          map_opt (fun i => match nth_error layers i with Some l => nth_error l (flip_low_bit (index / Nat.pow 2 i)) | None => None end) (seq 0 log_max) with
    | Some openings, Some proof => Some (openings, proof)
    | _, _ => None
    end.

  (** GetOpenedValuesAsPrimeFieldVectors, MM:238-270, on (index, height) pairs. *)
  Definition opened_values_of (opened : list (list F)) (dims : list (nat * nat)) : option (list P) :=
    match map_opt (fun d : nat * nat => nth_error opened (fst d)) dims with
    | Some rs => Some (flat_map coords (concat rs))
    | None => None
    end.

  (** CountLayers, MM:222-236. *)
  Definition count_layers (target : nat) (dims : list (nat * nat)) : nat := count_prefix (fun d => target =? bit_ceil (snd d)) dims.

  (** The loop over the proof, MM:192-216. *)
  Fixpoint verify_loop (opened : list (list F)) (proof : list D) (root : D) (index next_layer : nat) (dims : list (nat * nat)) : option D :=
    match proof with
    | [] => Some root
    | sibling :: proof' =>
        let root1 := if Nat.even index then compress root sibling else compress sibling root in
        let index' := index / 2 in
        let next_layer' := next_layer / 2 in
        let n := count_layers next_layer' dims in
        if 0 <? n then
          match opened_values_of opened (firstn n dims) with
          | Some v => verify_loop opened proof' (compress root1 (hash v)) index' next_layer' (skipn n dims)
          | None => None
          end
        else verify_loop opened proof' root1 index' next_layer' dims
    end.

  (** DoVerifyOpeningProof, MM:166-220.  Only the heights of the dimensions are read.  [None] also stands for the failed CHECK_EQ at MM:173 and for [front()] of an empty span (MM:187). *)
  Definition mmcs_verify (digest_eqb : D -> D -> bool) (commitment : D) (heights : list nat) (index : nat) (opened : list (list F)) (proof : list D) : option bool :=
    if negb (length heights =? length opened) then None else
    let dims := stable_sort snd (combine (seq 0 (length heights)) heights) in
    match dims with
    | [] => None
    | d :: _ =>
        let next_layer := bit_ceil (snd d) in
        let n := count_layers next_layer dims in
        match opened_values_of opened (firstn n dims) with
        | Some v => match verify_loop opened proof (hash v) index next_layer (skipn n dims) with
                    | Some root => Some (digest_eqb root commitment)
                    | None => None
                    end
        | None => None
        end
    end.

  (** The inputs on which the verifier calls the hasher and the compressor, in order (MM:189-215): the same traversal as [verify_loop] and [mmcs_verify]. *)
  Fixpoint verify_loop_calls (opened : list (list F)) (proof : list D) (root : D) (index next_layer : nat) (dims : list (nat * nat)) : list (call P D) :=
    match proof with
    | [] => []
    | sibling :: proof' =>
        let c := if Nat.even index then CallCompress root sibling else CallCompress sibling root in
        let root1 := if Nat.even index then compress root sibling else compress sibling root in
        let n := count_layers (next_layer / 2) dims in
        if 0 <? n then
          match opened_values_of opened (firstn n dims) with
          | Some v => c :: CallHash v :: CallCompress root1 (hash v) :: verify_loop_calls opened proof' (compress root1 (hash v)) (index / 2) (next_layer / 2) (skipn n dims)
          | None => [c]
          end
        else c :: verify_loop_calls opened proof' root1 (index / 2) (next_layer / 2) dims
    end.
  Definition mmcs_verify_calls (heights : list nat) (index : nat) (opened : list (list F)) (proof : list D) : list (call P D) :=
    let dims := stable_sort snd (combine (seq 0 (length heights)) heights) in
    match dims with
    | [] => []
    | d :: _ =>
        let n := count_layers (bit_ceil (snd d)) dims in
        match opened_values_of opened (firstn n dims) with
        | Some v => CallHash v :: verify_loop_calls opened proof (hash v) index (bit_ceil (snd d)) (skipn n dims)
        | None => []
        end
    end.
End Tree.
