(** Vocabulary for the theorems about Groth16. *)
From Coq Require Import ZArith List Bool Arith.
From Verif Require Import Field FFTModel FFTSpec R1csModel R1csSpec GrothModel.
Import ListNotations.
Open Scope fld_scope.

(** The number of constraints of a circuit, and the size of the domain for it: constraints, the constant and the public
    inputs, rounded up to a power of two. *)
Definition constraints {K : fld} (calls : circuit K) : nat := length (filter (fun c => match c with Enforce _ _ _ => true | _ => false end) calls).
Definition domain_log {K : fld} (calls : circuit K) : nat := Nat.log2_up (constraints calls + (1 + length (instances calls))).
(** An environment: a field with 2^adicity-th roots of unity, a generator outside all domains, fewer than 128 threads (C16),
    any schedule, any sort. *)
Definition env_ok {K : fld} (e : env K) : Prop :=
  (0 < e_threads e < 128)%Z /\ (e_adicity e < 62)%nat /\ primitive_root (e_root e) (2 ^ e_adicity e) /\ schedules (e_sched e) /\
  e_gen e <> 0 /\ e_gen e ^ (2 ^ e_adicity e) <> 1 /\ sorts_terms (e_sort e).
(** The combination of group elements with weights. *)
Fixpoint weighted {K : fld} {G : group K} (weights : list K) (points : list G) : G :=
  match weights, points with
  | w :: ws, p :: ps => (w ** p + weighted ws ps)%grp
  | _, _ => gzero
  end.
(** The same toxic waste with another secret point. *)
Definition with_x {K : fld} {G1 G2 : group K} (t : toxic_waste G1 G2) (x : K) : toxic_waste G1 G2 :=
  mk_toxic (t_alpha t) (t_beta t) (t_gamma t) (t_delta t) x (t_g1 t) (t_g2 t).

(** A prover that computes with the group elements of the key: fixed weights for those in the first group and for those in
    the second. *)
Record weights1 (K : fld) : Type := mk_w1 { w_alpha : K; w_beta : K; w_delta : K; w_a : list K; w_b : list K; w_h : list K; w_public : list K; w_witness : list K }.
Record weights2 (K : fld) : Type := mk_w2 { w2_beta : K; w2_gamma : K; w2_delta : K; w2_b : list K }.
Arguments w_alpha {K}. Arguments w_beta {K}. Arguments w_delta {K}. Arguments w_a {K}. Arguments w_b {K}. Arguments w_h {K}.
Arguments w_public {K}. Arguments w_witness {K}. Arguments w2_beta {K}. Arguments w2_gamma {K}. Arguments w2_delta {K}. Arguments w2_b {K}.
Definition in_first {K : fld} {G1 G2 : group K} (w : weights1 K) (pk : proving_key G1 G2) : G1 :=
  (w_alpha w ** vk_alpha (pk_vk pk) + w_beta w ** pk_beta pk + w_delta w ** pk_delta pk + weighted (w_a w) (pk_a pk) + weighted (w_b w) (pk_b1 pk)
   + weighted (w_h w) (pk_h pk) + weighted (w_public w) (vk_l (pk_vk pk)) + weighted (w_witness w) (pk_l pk))%grp.
Definition in_second {K : fld} {G1 G2 : group K} (w : weights2 K) (pk : proving_key G1 G2) : G2 :=
  (w2_beta w ** vk_beta (pk_vk pk) + w2_gamma w ** vk_gamma (pk_vk pk) + w2_delta w ** vk_delta (pk_vk pk) + weighted (w2_b w) (pk_b2 pk))%grp.
(** One weight for every element of the key of a circuit. *)
Definition sized {K : fld} (calls : circuit K) (w : weights1 K) : Prop :=
  let n := (1 + length (instances calls) + length (witnesses calls))%nat in
  length (w_a w) = n /\ length (w_b w) = n /\ length (w_h w) = (2 ^ domain_log calls - 1)%nat /\
  length (w_public w) = (1 + length (instances calls))%nat /\ length (w_witness w) = length (witnesses calls).
