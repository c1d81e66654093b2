(** Independent notions for the Poseidon properties: matrices over a field, the permutation of the Poseidon paper,
    MDS matrices. Only definitions. *)
From Coq Require Import ZArith List Bool Arith.
From Verif Require Import Field.
Import ListNotations.
Open Scope fld_scope.

Section Spec.
  Context {K : fld}.
  (** The product of an n by n matrix and a vector, both given by their entries. *)
  Definition mv (n : nat) (m : nat -> nat -> K) (v : nat -> K) : nat -> K :=
    fun i => fsum (map (fun j => m i j * v j) (seq 0 n)).
  Definition nonsingular (n : nat) (m : nat -> nat -> K) : Prop :=
    forall v, (forall i, (i < n)%nat -> mv n m v i = 0) -> forall i, (i < n)%nat -> v i = 0.
  Definition inverse_of (n : nat) (m w : nat -> nat -> K) : Prop :=
    forall i j, (i < n)%nat -> (j < n)%nat ->
      fsum (map (fun k => m i k * w k j) (seq 0 n)) = (if Nat.eqb i j then 1 else 0) /\
      fsum (map (fun k => w i k * m k j) (seq 0 n)) = (if Nat.eqb i j then 1 else 0).
  (** A routine that inverts every nonsingular matrix of size [n]. *)
  Definition inverts (inv : nat -> (nat -> nat -> K) -> (nat -> nat -> K)) (n : nat) : Prop :=
    forall m, nonsingular n m -> inverse_of n m (inv n m).

  (** The Poseidon permutation (eprint 2019/458): in every round the round constants are added, the S-box x^alpha is
      applied to every element (to the first only in the partial rounds), and the state is multiplied by the matrix.
      The first and the last rf / 2 rounds are full. *)
  Definition poseidon_round (n rf rp alpha : nat) (mds ark : nat -> nat -> K) (x : nat -> K) (r : nat) : nat -> K :=
    let full := Nat.ltb r (Nat.div rf 2) || Nat.leb (Nat.div rf 2 + rp) r in
    mv n mds (fun i => if full || Nat.eqb i 0 then (x i + ark r i) ^ alpha else x i + ark r i).
  Definition poseidon (n rf rp alpha : nat) (mds ark : nat -> nat -> K) (x : nat -> K) : nat -> K :=
    fold_left (poseidon_round n rf rp alpha mds ark) (seq 0 (rf + rp)) x.

  (** Every square submatrix is nonsingular: [rows] and [cols] choose k different rows and columns. *)
  Definition is_mds (n : nat) (m : nat -> nat -> K) : Prop :=
    forall (k : nat) (rows cols : nat -> nat),
      (forall i, i < k -> rows i < n /\ cols i < n)%nat ->
      (forall i j, i < k -> j < k -> rows i = rows j \/ cols i = cols j -> i = j)%nat ->
      nonsingular k (fun i j => m (rows i) (cols j)).

  (** The Poseidon2 permutation (eprint 2023/323): an initial product with the external matrix, then rf / 2 full, rp
      partial and the remaining full rounds; partial rounds add one constant and use the internal matrix. *)
  Definition poseidon2_round (n rf rp alpha : nat) (ext int ark : nat -> nat -> K) (x : nat -> K) (r : nat) : nat -> K :=
    let full := Nat.ltb r (Nat.div rf 2) || Nat.leb (Nat.div rf 2 + rp) r in
    mv n (if full then ext else int) (fun i => if full || Nat.eqb i 0 then (x i + ark r i) ^ alpha else x i).
  Definition poseidon2 (n rf rp alpha : nat) (ext int ark : nat -> nat -> K) (x : nat -> K) : nat -> K :=
    fold_left (poseidon2_round n rf rp alpha ext int ark) (seq 0 (rf + rp)) (mv n ext x).
  (** The external matrix of a width that is a multiple of 4: circ(2 M, M, ..., M), and M itself for width 4. *)
  Definition block_circulant (m4 : nat -> nat -> K) : nat -> nat -> K :=
    fun i j => (if Nat.eqb (Nat.div i 4) (Nat.div j 4) then fnat 2 else 1) * m4 (Nat.modulo i 4) (Nat.modulo j 4).
  (** The 4 by 4 matrices of Horizen Labs and of Plonky3. *)
  Definition of_rows (l : list (list nat)) : nat -> nat -> K := fun i j => fnat (nth j (nth i l []) 0%nat).
  Definition m4_horizen := of_rows [[5; 7; 1; 3]; [4; 6; 1; 1]; [1; 3; 5; 7]; [1; 1; 4; 6]]%nat.
  Definition m4_plonky3 := of_rows [[2; 3; 1; 1]; [1; 2; 3; 1]; [1; 1; 2; 3]; [3; 1; 1; 2]]%nat.
  (** Ones outside the diagonal. *)
  Definition ones_with_diagonal (mu : nat -> K) : nat -> nat -> K := fun i j => if Nat.eqb i j then mu i else 1.
  (** The external matrix of Poseidon2 for the width [w]. *)
  Definition external_matrix (m4 : nat -> nat -> K) (w : nat) : nat -> nat -> K :=
    if Nat.leb w 3 then ones_with_diagonal (fun _ => fnat 2) else if Nat.eqb w 4 then m4 else block_circulant m4.
  (** The widths Poseidon2 supports. *)
  Definition supported_width (w : nat) : Prop := (2 <= w <= 24)%nat /\ (w <= 3 \/ exists q, w = 4 * q)%nat.
End Spec.
