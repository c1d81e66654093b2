(** Vocabulary for the transform theorems. *)
From Coq Require Import ZArith List Arith Permutation.
From Verif Require Import Field PolySpec BitsSpec FFTModel.
Import ListNotations.
Open Scope fld_scope.

(** [w] has multiplicative order exactly [n]. *)
Definition primitive_root {K : fld} (w : K) (n : nat) : Prop :=
  w ^ n = 1 /\ forall i, (0 < i < n)%nat -> w ^ i <> 1.
(** The values of the polynomial [l] on the coset h, h g, ..., h g^(n-1). *)
Definition values_on {K : fld} (l : list K) (h g : K) (n : nat) : list K :=
  map (fun i => eval l (h * g ^ i)) (seq 0 n).
(** A scheduler runs every iteration of a parallel loop exactly once, in some order. *)
Definition schedules (sched : forall A : Type, nat -> list A -> list A) : Prop :=
  forall A t (l : list A), Permutation l (sched A t l).

(** What a request to the twiddle cache asks for. [g] generates the subgroup of size 2^k; a full request needs the
    tables of every layer, a packed-only one those of the widest layer; fields of at most 32 bits also use the
    bit-reversed tables. *)
Definition complete_item {K : fld} (small packed_only : bool) (k : nat) (g : K) (it : item K) : Prop :=
  (packed_only = false -> forall s, (s < k)%nat ->
     nth_error (it_roots it) s = Some (map (fun j => g ^ (2 ^ (k - 1 - s) * j)) (seq 0 (2 ^ s))) /\
     nth_error (it_inv it) s = Some (map (fun j => (finv g) ^ (2 ^ s * j)) (seq 0 (2 ^ (k - 1 - s))))) /\
  ((0 < k)%nat ->
     last (it_roots it) [] = map (fun j => g ^ j) (seq 0 (2 ^ (k - 1))) /\
     hd [] (it_inv it) = map (fun j => (finv g) ^ j) (seq 0 (2 ^ (k - 1))) /\
     (small = true ->
        it_bitrev it = map (fun j => g ^ Z.to_nat (rev_bits (k - 1) (Z.of_nat j))) (seq 0 (2 ^ (k - 1))) /\
        it_bitrev_inv it = map (fun j => (finv g) ^ Z.to_nat (rev_bits (k - 1) (Z.of_nat j))) (seq 0 (2 ^ (k - 1))))).
(** The answers to a history of requests to a cache that holds [items]; [None] when a request aborts. *)
Fixpoint answers {K : fld} (small : bool) (threads : Z) (sched : scheduler) (junk : bool) (items : cache K) (reqs : list (domain K * bool))
  : option (list (item K)) :=
  match reqs with
  | [] => Some []
  | (d, packed_only) :: r =>
      match get_item small threads sched junk items d packed_only with
      | None => None
      | Some (items', it) => option_map (cons it) (answers small threads sched junk items' r)
      end
  end.
(** [d] is the domain that Create(2^k) returns, or a coset of it: its points are h, h g, h g^2, ... *)
Definition radix2_domain {K : fld} (adicity : nat) (root : K) (k : nat) (h : K) (d : domain K) : Prop :=
  exists d0, create_domain adicity root (2 ^ k) = Some d0 /\ ((h = 1 /\ d = d0) \/ get_coset d0 h = Some d).
(** Its generator. *)
Definition generator {K : fld} (adicity : nat) (root : K) (k : nat) : K := root ^ (2 ^ (adicity - k)).
