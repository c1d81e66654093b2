(** Model of crypto/commitments/merkle_tree/binary_merkle_tree/{binary_merkle_tree.h, binary_merkle_proof.h, simple_binary_merkle_tree_storage.h}.
    Only definitions.  size_t values are integers reduced modulo 2^64 where the code can wrap.  The tree is a template over the leaf, the hash and the hasher. *)
From Coq Require Import ZArith List Bool.
From Verif Require Import ParallelizeModel.
Import ListNotations.
Open Scope Z_scope.

(** A computation ends, or leaves a vector (undefined behaviour), or is cut off by the fuel of the model. *)
Inductive outcome (A : Type) := Ok (a : A) | Undefined | Unfinished.
Arguments Ok {A}. Arguments Undefined {A}. Arguments Unfinished {A}.
Definition bind {A B : Type} (x : outcome A) (f : A -> outcome B) : outcome B :=
  match x with Ok a => f a | Undefined => Undefined | Unfinished => Unfinished end.
Definition wrap64 (x : Z) : Z := x mod 2 ^ 64.

(** binary_merkle_proof.h:10-24 *)
Record merkle_path {H : Type} := mk_path { path_left : bool; path_hash : H }.
Arguments merkle_path : clear implicits.

Section BinaryMerkle.
  Context {Leaf H : Type}.
  (** BinaryMerkleHasher: ComputeLeafHash, ComputeParentHash; operator== of hashes; the value-initialised hash. *)
  Variables (leaf_hash : Leaf -> H) (parent_hash : H -> H -> H) (hash_eqb : H -> H -> bool) (default : H).

  (** simple_binary_merkle_tree_storage.h: Allocate is vector::resize, GetHash and SetHash index the vector. *)
  Definition allocate (t : list H) (n : Z) : list H := firstn (Z.to_nat n) t ++ repeat default (Z.to_nat n - length t).
  Definition get_hash (t : list H) (i : Z) : outcome H :=
    if (i <? 0) then Undefined else match nth_error t (Z.to_nat i) with Some h => Ok h | None => Undefined end.
  Definition set_hash (t : list H) (i : Z) (h : H) : outcome (list H) :=
    if ((0 <=? i) && (i <? Z.of_nat (length t)))%bool then Ok (set_nth (Z.to_nat i) h t) else Undefined.

  (** binary_merkle_tree.h:142-147 the inner loop of BuildTreeFromLeaves. Every iteration reads index [i], so length t + 1 iterations are enough. *)
  Fixpoint build_level (fuel : nat) (i to : Z) (t : list H) : outcome (list H) :=
    match fuel with
    | O => Unfinished
    | S fuel' =>
        if i <? to then
          bind (get_hash t i) (fun l => bind (get_hash t (i + 1)) (fun r =>
          bind (set_hash t (i / 2) (parent_hash l r)) (fun t' => build_level fuel' (i + 2) to t')))
        else Ok t
    end.
  (** :140-150 BuildTreeFromLeaves(range); base/range.h:155-165 GetSize() is zero when from >= to. Each round halves [from], so 65 rounds are enough. *)
  Fixpoint build_tree (fuel : nat) (from to : Z) (t : list H) : outcome (list H) :=
    match fuel with
    | O => Unfinished
    | S fuel' =>
        if from <? to then
          bind (build_level (S (length t)) from to t) (fun t' => build_tree fuel' (from / 2) (wrap64 (to / 2 - 1)) t')
        else Ok t
    end.
  Definition build_tree_from_leaves (from to : Z) (t : list H) : outcome (list H) := build_tree 66 from to t.

  (** :133-137 the loop of FillLeaves, in the order in which its iterations happen *)
  Fixpoint fill_loop (order : list nat) (leaves : list Leaf) (t : list H) : outcome (list H) :=
    match order with
    | [] => Ok t
    | i :: r => match nth_error leaves i with
                | None => Undefined
                | Some x => bind (set_hash t (Z.of_nat (length leaves) + Z.of_nat i - 1) (leaf_hash x)) (fill_loop r leaves)
                end
    end.
  (** base/bits.h IsPowerOfTwo *)
  Definition is_power_of_two (n : Z) : bool := ((0 <? n) && (Z.land n (n - 1) =? 0))%bool.
  (** :119-138 FillLeaves; the CheckedNumeric is in range as long as the tree fits in memory; Ok None is false *)
  Definition fill_leaves (max_size : Z) (order : list nat) (leaves : list Leaf) (t : list H) : outcome (option (list H)) :=
    let n := Z.of_nat (length leaves) in
    if negb (is_power_of_two n) then Ok None
    else if max_size <? n then Ok None
    else bind (fill_loop order leaves (allocate t (2 * n - 1))) (fun t' => Ok (Some t')).

  (** :69-74 the parallel loop over subtrees; [order] lists its iterations in the order in which they run *)
  Fixpoint build_subtrees (order : list nat) (n size : Z) (t : list H) : outcome (list H) :=
    match order with
    | [] => Ok t
    | i :: r => let from := n - 1 + Z.of_nat i * size in
                bind (build_tree_from_leaves from (from + size) t) (build_subtrees r n size)
    end.
  (** :54-85 DoCommit: the storage and the commitment *)
  Definition commit (max_size size : Z) (fill_order tree_order : list nat) (leaves : list Leaf) (t : list H) : outcome (option (list H * H)) :=
    bind (fill_leaves max_size fill_order leaves t) (fun filled =>
    match filled with
    | None => Ok None
    | Some t =>
        let n := Z.of_nat (length leaves) in
        bind (if size <? n then
                bind (build_subtrees tree_order n size t) (fun t =>
                let i := Z.log2 n - Z.log2 size in
                build_tree_from_leaves (2 ^ i - 1) (2 ^ (i + 1) - 1) t)
              else build_tree_from_leaves (n - 1) (2 * n - 1) t) (fun t =>
        bind (get_hash t 0) (fun root => Ok (Some (t, root))))
    end).

  (** :87-107 DoCreateOpeningProof; [slots] is how many elements of proof->paths are left. index strictly decreases, so it bounds the loop. *)
  Fixpoint opening_loop (fuel slots : nat) (index : Z) (t : list H) : outcome (list (merkle_path H)) :=
    if index <=? 0 then Ok [] else
    match fuel, slots with
    | O, _ => Unfinished
    | _, O => Undefined
    | S fuel', S slots' =>
        bind (if index mod 2 =? 0 then bind (get_hash t (index - 1)) (fun h => Ok (mk_path H true h))
              else bind (get_hash t (index + 1)) (fun h => Ok (mk_path H false h))) (fun path =>
        bind (opening_loop fuel' slots' ((index - 1) / 2) t) (fun rest => Ok (path :: rest)))
    end.
  Definition create_opening_proof (index : Z) (t : list H) : outcome (list (merkle_path H)) :=
    let size := Z.of_nat (length t) in
    opening_loop 66 (Z.to_nat (Z.log2 size)) (size / 2 + index) t.

  (** :109-117 DoVerifyOpeningProof *)
  Definition path_step (hash : H) (path : merkle_path H) : H :=
    if path_left path then parent_hash (path_hash path) hash else parent_hash hash (path_hash path).
  Definition verify_opening_proof (root hash : H) (paths : list (merkle_path H)) : bool := hash_eqb (fold_left path_step paths hash) root.
End BinaryMerkle.
