(** Vocabulary for binary Merkle trees. *)
From Coq Require Import ZArith List Permutation.
From Verif Require Import MerkleModel.
Import ListNotations.

(** The hash of the complete subtree of height [h] whose leaves are j 2^h, ..., (j+1) 2^h - 1. *)
Fixpoint node {H : Type} (parent : H -> H -> H) (leaf : nat -> H) (h j : nat) : H :=
  match h with
  | O => leaf j
  | S h' => parent (node parent leaf h' (2 * j)) (node parent leaf h' (2 * j + 1))
  end.
(** The same root, by halving the list of leaf hashes. *)
Fixpoint merkle_root {H : Type} (parent : H -> H -> H) (default : H) (k : nat) (hashes : list H) : H :=
  match k with
  | O => nth 0 hashes default
  | S k' => parent (merkle_root parent default k' (firstn (Nat.pow 2 k') hashes)) (merkle_root parent default k' (skipn (Nat.pow 2 k') hashes))
  end.

(** Running two openings of the same shape side by side: the first level at which different inputs give the same output. *)
Fixpoint find_collision {H : Type} (parent : H -> H -> H) (eqb : H -> H -> bool) (h1 h2 : H) (p1 p2 : list (merkle_path H)) : option ((H * H) * (H * H)) :=
  match p1, p2 with
  | x1 :: r1, x2 :: r2 =>
      let a1 := if path_left x1 then (path_hash x1, h1) else (h1, path_hash x1) in
      let a2 := if path_left x2 then (path_hash x2, h2) else (h2, path_hash x2) in
      let o1 := parent (fst a1) (snd a1) in
      let o2 := parent (fst a2) (snd a2) in
      if eqb o1 o2 then Some (a1, a2) else find_collision parent eqb o1 o2 r1 r2
  | _, _ => None
  end.
Definition same_shape {H : Type} (p1 p2 : list (merkle_path H)) : Prop := map path_left p1 = map path_left p2.
