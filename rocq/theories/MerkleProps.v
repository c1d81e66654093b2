(** Property theorems C53, C54 and C90: the binary Merkle tree.
    [merkle_root] (MerkleSpec.v) hashes the leaf hashes by halving the list; [Ok None] is a return value of false, [Undefined] an access outside a vector. *)
From Coq Require Import ZArith List Bool Lia Permutation Arith.
From Verif Require Import MerkleModel MerkleSpec MerkleProof MerkleExtra.
Import ListNotations.
Open Scope nat_scope.

(** ** C53: 2^k leaves, k >= 1; 2^l leaves per parallel subtree, l >= 1; any earlier contents of the storage, any order of the parallel loops. *)
Theorem C53_honest_openings_verify : forall {Leaf H : Type} (leaf_hash : Leaf -> H) (parent : H -> H -> H) (hash_eqb : H -> H -> bool) (default : H),
  (forall x y, hash_eqb x y = true <-> x = y) ->
  forall (k l : nat) (max_size : Z) (fill_order tree_order : list nat) (leaves : list Leaf) (t : list H),
  1 <= k <= 62 -> 1 <= l -> length leaves = Nat.pow 2 k -> (Z.of_nat (length leaves) <= max_size)%Z ->
  Permutation fill_order (seq 0 (length leaves)) -> Permutation tree_order (seq 0 (Nat.pow 2 (k - l))) ->
  let root := merkle_root parent default k (map leaf_hash leaves) in
  exists t', commit leaf_hash parent default max_size (Z.of_nat (Nat.pow 2 l)) fill_order tree_order leaves t = Ok (Some (t', root)) /\
    forall i x, nth_error leaves i = Some x ->
      exists paths, create_opening_proof (Z.of_nat i) t' = Ok paths /\ length paths = k /\
                    verify_opening_proof parent hash_eqb root (leaf_hash x) paths = true.
Proof. exact (fun Leaf H => merkle_complete (Leaf := Leaf) (H := H)). Qed.
Print Assumptions C53_honest_openings_verify.

Theorem C53_rejects : forall {Leaf H : Type} (leaf_hash : Leaf -> H) (parent : H -> H -> H) (default : H)
  (max_size size : Z) (fill_order tree_order : list nat) (leaves : list Leaf) (t : list H),
  ~ (exists k, length leaves = Nat.pow 2 k) \/ (max_size < Z.of_nat (length leaves))%Z ->
  commit leaf_hash parent default max_size size fill_order tree_order leaves t = Ok None.
Proof. exact (fun Leaf H => merkle_rejects (Leaf := Leaf) (H := H)). Qed.
Print Assumptions C53_rejects.

(** The unit test's hash, left + 2 right, on the leaves 0..7 with subtrees of 4 (and of 2, in another order). *)
Example C53_nonvacuous :
  let leaves := [0; 1; 2; 3; 4; 5; 6; 7]%Z in
  let c4 := commit (fun x => x) plus2 0%Z 8 4 [0; 1; 2; 3; 4; 5; 6; 7] [1; 0] leaves [] in
  let c2 := commit (fun x => x) plus2 0%Z 8 2 [7; 1; 2; 3; 4; 5; 6; 0] [3; 1; 0; 2] leaves [9; 9]%Z in
  c4 = Ok (Some ([126; 18; 54; 2; 8; 14; 20; 0; 1; 2; 3; 4; 5; 6; 7]%Z, 126%Z)) /\ c2 = c4 /\
  merkle_root plus2 0%Z 3 leaves = 126%Z /\
  create_opening_proof 1 [126; 18; 54; 2; 8; 14; 20; 0; 1; 2; 3; 4; 5; 6; 7]%Z = Ok [mk_path Z true 0%Z; mk_path Z false 8%Z; mk_path Z false 54%Z] /\
  verify_opening_proof plus2 Z.eqb 126%Z 1%Z [mk_path Z true 0%Z; mk_path Z false 8%Z; mk_path Z false 54%Z] = true /\
  verify_opening_proof plus2 Z.eqb 126%Z 2%Z [mk_path Z true 0%Z; mk_path Z false 8%Z; mk_path Z false 54%Z] = false.
Proof. cbv zeta. repeat split; vm_compute; reflexivity. Qed.

(** ** C54: two different leaf hashes that open the same root along the same route exhibit a collision of the parent hash, and [find_collision] computes it. *)
Theorem C54_binding : forall {H : Type} (parent : H -> H -> H) (hash_eqb : H -> H -> bool), (forall x y, hash_eqb x y = true <-> x = y) ->
  forall (p1 p2 : list (merkle_path H)) (h1 h2 root : H), same_shape p1 p2 -> h1 <> h2 ->
  verify_opening_proof parent hash_eqb root h1 p1 = true -> verify_opening_proof parent hash_eqb root h2 p2 = true ->
  exists a1 a2, find_collision parent hash_eqb h1 h2 p1 p2 = Some (a1, a2) /\ a1 <> a2 /\ parent (fst a1) (snd a1) = parent (fst a2) (snd a2).
Proof. exact (fun H => binding (H := H)). Qed.
Print Assumptions C54_binding.

(** The test hash is not collision resistant: 2 and 0 both open 126 at index 1, with the collision (0, 1), (-2, 2). *)
Example C54_nonvacuous :
  let p1 := [mk_path Z true 0%Z; mk_path Z false 8%Z; mk_path Z false 54%Z] in
  let p2 := [mk_path Z true (-2)%Z; mk_path Z false 8%Z; mk_path Z false 54%Z] in
  verify_opening_proof plus2 Z.eqb 126%Z 1%Z p1 = true /\ verify_opening_proof plus2 Z.eqb 126%Z 2%Z p2 = true /\ same_shape p1 p2 /\
  find_collision plus2 Z.eqb 1%Z 2%Z p1 p2 = Some ((0, 1), (-2, 2))%Z.
Proof. repeat split; vm_compute; reflexivity. Qed.

(** ** C90: Commit is not defined on everything it accepts. *)
Theorem C90_single_leaf_refuted : forall {Leaf H : Type} (leaf_hash : Leaf -> H) (parent : H -> H -> H) (default : H) (max_size size : Z) (x : Leaf) (t : list H),
  (1 <= max_size)%Z -> (1 <= size)%Z -> commit leaf_hash parent default max_size size [0] [] [x] t = Undefined.
Proof. exact (fun Leaf H => single_leaf (Leaf := Leaf) (H := H)). Qed.
Print Assumptions C90_single_leaf_refuted.
Theorem C90_threshold_one_refuted : exists leaves : list Z, length leaves = 2 /\
  commit (fun x : Z => x) plus2 0%Z 8 1 [0; 1] [0; 1] leaves [] = Undefined.
Proof. exact (ex_intro _ [5; 6]%Z (conj eq_refl threshold_one)). Qed.
Print Assumptions C90_threshold_one_refuted.
Example C90_nonvacuous : is_power_of_two 1 = true /\ commit (fun x : Z => x) plus2 0%Z 8 1024 [0] [] [5]%Z [] = Undefined /\
  commit (fun x : Z => x) plus2 0%Z 8 2 [0; 1] [0] [5; 6]%Z [] = Ok (Some ([17; 5; 6], 17))%Z.
Proof. repeat split; vm_compute; reflexivity. Qed.
