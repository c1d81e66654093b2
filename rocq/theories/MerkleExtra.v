(** The forms used by the properties of the binary Merkle tree. *)
From Coq Require Import ZArith List Bool Lia Permutation Arith.
From Verif Require Import ParallelizeModel MerkleModel MerkleSpec MerkleProof.
Import ListNotations.
Open Scope nat_scope.

Section Tree.
  Context {Leaf H : Type}.
  Variables (leaf_hash : Leaf -> H) (parent : H -> H -> H) (hash_eqb : H -> H -> bool) (default : H).
  Hypothesis eqb_spec : forall x y, hash_eqb x y = true <-> x = y.

  Lemma merkle_complete k l max_size fill_order tree_order (leaves : list Leaf) (t : list H) : 1 <= k <= 62 -> 1 <= l -> length leaves = Nat.pow 2 k ->
    (Z.of_nat (length leaves) <= max_size)%Z ->
    Permutation fill_order (seq 0 (length leaves)) -> Permutation tree_order (seq 0 (Nat.pow 2 (k - l))) ->
    let root := merkle_root parent default k (map leaf_hash leaves) in
    exists t', commit leaf_hash parent default max_size (Z.of_nat (Nat.pow 2 l)) fill_order tree_order leaves t = Ok (Some (t', root)) /\
      forall i x, nth_error leaves i = Some x ->
        exists paths, create_opening_proof (Z.of_nat i) t' = Ok paths /\ length paths = k /\
                      verify_opening_proof parent hash_eqb root (leaf_hash x) paths = true.
  Proof.
    intros Hk Hl Hn Hm HF HT root. destruct (commit_spec leaf_hash parent default k l max_size fill_order tree_order leaves t Hk Hl Hn Hm HF HT) as (t' & E & L & C).
    set (leaf := fun j => nth j (map leaf_hash leaves) default) in *.
    assert (ER : node parent leaf k 0 = root).
    { apply (node_root parent default). rewrite map_length. exact Hn. intros j Hj. reflexivity. }
    rewrite ER in E. exists t'. split; [exact E|].
    intros i x Hx. assert (Hi : i < Nat.pow 2 k) by (rewrite <- Hn; apply nth_error_Some; rewrite Hx; discriminate).
    pose proof (pow2_pos k) as Pk. pose proof (pow2_S k) as Sk.
    destruct (opening_spec parent k leaf t' C k 66 i ltac:(lia) ltac:(lia) Hi) as (paths & EP & LP & V).
    exists paths. split; [|split; [exact LP|]].
    - unfold create_opening_proof. rewrite L.
      assert (E1 : (Z.of_nat (Nat.pow 2 (S k) - 1) / 2)%Z = Z.of_nat (Nat.pow 2 k - 1)).
      { symmetry. apply (Z.div_unique _ 2 _ 1). lia. lia. }
      assert (E2 : Z.log2 (Z.of_nat (Nat.pow 2 (S k) - 1)) = Z.of_nat k).
      { apply Z.log2_unique; [lia|]. rewrite <- pow2_Z. rewrite <- Nat2Z.inj_succ, <- pow2_Z. lia. }
      rewrite E1, E2, Nat2Z.id, <- Nat2Z.inj_add. exact EP.
    - unfold verify_opening_proof. apply eqb_spec. rewrite <- ER, <- V. rewrite Nat.sub_diag. cbn [node]. unfold leaf. f_equal.
      symmetry. apply nth_error_nth. rewrite nth_error_map, Hx. reflexivity.
  Qed.

  (** ** Binding *)
  Lemma binding : forall p1 p2 h1 h2 root, same_shape p1 p2 -> h1 <> h2 ->
    verify_opening_proof parent hash_eqb root h1 p1 = true -> verify_opening_proof parent hash_eqb root h2 p2 = true ->
    exists a1 a2, find_collision parent hash_eqb h1 h2 p1 p2 = Some (a1, a2) /\ a1 <> a2 /\ parent (fst a1) (snd a1) = parent (fst a2) (snd a2).
  Proof.
    unfold same_shape, verify_opening_proof.
    induction p1 as [|x1 p1 IH]; intros p2 h1 h2 root HS Hne V1 V2; (destruct p2 as [|x2 p2]; cbn [map] in HS; try discriminate HS).
    - cbn in V1, V2. apply eqb_spec in V1, V2. congruence.
    - injection HS as HS0 HS. cbn [fold_left] in V1, V2. cbn [find_collision]. unfold path_step in V1 at 2. unfold path_step in V2 at 2.
      set (a1 := if path_left x1 then (path_hash x1, h1) else (h1, path_hash x1)). set (a2 := if path_left x2 then (path_hash x2, h2) else (h2, path_hash x2)).
      assert (E1 : (if path_left x1 then parent (path_hash x1) h1 else parent h1 (path_hash x1)) = parent (fst a1) (snd a1)) by (unfold a1; destruct (path_left x1); reflexivity).
      assert (E2 : (if path_left x2 then parent (path_hash x2) h2 else parent h2 (path_hash x2)) = parent (fst a2) (snd a2)) by (unfold a2; destruct (path_left x2); reflexivity).
      rewrite E1 in V1. rewrite E2 in V2.
      destruct (hash_eqb (parent (fst a1) (snd a1)) (parent (fst a2) (snd a2))) eqn:E.
      + exists a1, a2. split; [reflexivity|]. split; [|apply eqb_spec; exact E]. unfold a1, a2. rewrite HS0. destruct (path_left x2); congruence.
      + apply (IH p2 _ _ root); auto. intro X. apply eqb_spec in X. congruence.
  Qed.

End Tree.

Section Partial.
  Context {Leaf H : Type}.
  Variables (leaf_hash : Leaf -> H) (parent : H -> H -> H) (default : H).
  Lemma merkle_rejects max_size size fill_order tree_order (leaves : list Leaf) (t : list H) :
    ~ (exists k, length leaves = Nat.pow 2 k) \/ (max_size < Z.of_nat (length leaves))%Z ->
    commit leaf_hash parent default max_size size fill_order tree_order leaves t = Ok None.
  Proof.
    intro Hx. unfold commit, fill_leaves. destruct (is_power_of_two (Z.of_nat (length leaves))) eqn:E; cbn [negb]; [|reflexivity].
    destruct (Z.ltb_spec max_size (Z.of_nat (length leaves))); [reflexivity|]. exfalso. apply is_power_of_two_spec in E. destruct Hx as [Hx|Hx]; [auto|lia].
  Qed.

  (** A single leaf: the root would be combined with a node that does not exist. *)
  Lemma single_leaf max_size size x (t : list H) : (1 <= max_size)%Z -> (1 <= size)%Z ->
    commit leaf_hash parent default max_size size [0] [] [x] t = Undefined.
  Proof.
    intros Hm Hs. unfold commit, fill_leaves. cbn [length]. change (is_power_of_two (Z.of_nat 1)) with true. cbn [negb].
    destruct (Z.ltb_spec max_size (Z.of_nat 1)); [lia|]. change (2 * Z.of_nat 1 - 1)%Z with (Z.of_nat 1).
    pose proof (allocate_length parent default t 1) as L. destruct (allocate default t (Z.of_nat 1)) as [|y [|]]; try discriminate L. cbn [fill_loop nth_error length].
    change (set_hash [y] (Z.of_nat 1 + Z.of_nat 0 - 1) (leaf_hash x)) with (Ok [leaf_hash x]). cbn [bind].
    destruct (Z.ltb_spec size (Z.of_nat 1)); [lia|]. change (build_tree_from_leaves parent (Z.of_nat 1 - 1) (2 * Z.of_nat 1 - 1) [leaf_hash x]) with (@Undefined (list H)). reflexivity.
  Qed.
End Partial.

(** With one leaf per subtree, the iteration of the last leaf reads past the end. *)
Definition plus2 (x y : Z) : Z := (x + 2 * y)%Z.
Lemma threshold_one : commit (fun x : Z => x) plus2 0%Z 8 1 [0; 1] [0; 1] [5; 6]%Z [] = Undefined.
Proof. vm_compute. reflexivity. Qed.
