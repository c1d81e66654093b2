(** The field Merkle tree commitment scheme of FieldMerkleModel.v as the two commitment schemes of PcsModel.v, as in
    tachyon/crypto/commitments/fri/two_adic_fri.h:44-74 (InputMMCS, ChallengeMMCS). Only definitions. *)
From Coq Require Import List Bool Arith.
From Verif Require Import Field FieldMerkleModel.
Import ListNotations.
Open Scope nat_scope.

Section Merkle.
  Variable K : fld.
  Context {P D : Type}.
  Variables (coords : K -> list P) (hash : list P -> D) (compress : D -> D -> D) (zero : D) (digest_eqb : D -> D -> bool).
  Notation matrix := (list (list K)).
  (** ProverData (mixed_matrix_commitment_scheme.h, field_merkle_tree.h): the matrices and the digest layers. *)
  Definition tree_data : Type := list matrix * list (list D).
  Definition tree_commit (ms : list matrix) : option (D * tree_data) :=
    match mmcs_commit coords hash compress zero ms with Some (r, layers) => Some (r, (ms, layers)) | None => None end.
  Definition tree_matrices (d : tree_data) : list matrix := fst d.
  Definition tree_open (i : nat) (d : tree_data) : option (list (list K) * list D) := mmcs_open i (fst d) (snd d).
  (** A failed CHECK inside the verification counts as a rejection here: TF:279-281 aborts on either. *)
  Definition tree_verify (c : D) (dims : list (nat * nat)) (i : nat) (rows : list (list K)) (pf : list D) : bool :=
    match mmcs_verify coords hash compress digest_eqb c (map snd dims) i rows pf with Some b => b | None => false end.
  (** The same scheme for one matrix. *)
  Definition tree_commit1 (m : matrix) : option (D * tree_data) := tree_commit [m].
  Definition tree_matrix1 (d : tree_data) : matrix := nth 0 (fst d) [].
  Definition tree_verify1 (c : D) (dims : nat * nat) (i : nat) (rows : list (list K)) (pf : list D) : bool := tree_verify c [dims] i rows pf.
End Merkle.
Arguments tree_commit {K P D}. Arguments tree_matrices {K D}. Arguments tree_open {K D}. Arguments tree_verify {K P D}.
Arguments tree_commit1 {K P D}. Arguments tree_matrix1 {K D}. Arguments tree_verify1 {K P D}.
