(** Vocabulary for Pedersen commitments and batches of commitments. *)
From Coq Require Import ZArith List Bool Arith.
From Verif Require Import Field GrothModel KzgModel PedersenModel.
Import ListNotations.

(** a_0 g_0 + a_1 g_1 + ... *)
Definition combination {K : fld} {G : group K} (vs : list K) (gs : list G) : G :=
  fold_right gadd gzero (map (fun '(a, g) => (a ** g)%grp) (combine vs gs)).
(** Entry by entry. *)
Definition vector_sum {K : fld} (v w : list K) : list K := map (fun '(a, b) => (a + b)%fld) (combine v w).
Definition vector_difference {K : fld} (v w : list K) : list K := map (fun '(a, b) => (a - b)%fld) (combine v w).
(** What index [i] holds after the requests: the commitment of the last request for [i] that has one, at first [d]. *)
Definition last_at {Q C : Type} (commitment : Q -> option C) (d : C) (i : nat) (requests : list (Q * nat)) : C :=
  fold_left (fun c '(q, j) => if Nat.eqb j i then match commitment q with Some c' => c' | None => c end else c) requests d.
(** The commitment made without a batch; [true] asks for CommitLagrange. *)
Definition kzg_value {K : fld} {G : group K} (k : kzg G) (q : bool * list K) : option G :=
  if fst q then commit_lagrange k (snd q) else commit k (snd q).
(** The Pedersen commitment of the vector with the random value zero. *)
Definition unblinded {K : fld} {G : group K} (p : pedersen G) (q : list K * K) : option G := pd_commit p (fst q) 0%fld.
