(** Properties C266-C268: Pedersen commitments and batches of commitments. *)
From Coq Require Import ZArith List Bool Arith Lia.
From Verif Require Import Field Zp GrothModel GrothInst KzgModel PedersenModel PedersenSpec PedersenProof PedersenExtra.
Import ListNotations.
Open Scope nat_scope.

(** ** C266: Pedersen commitments *)
(** r h + v_0 g_0 + ... for vectors of the right size only; too many generators stop the process. *)
Theorem C266_commit : forall (K : fld) (G : group K) (max_size : nat) (h : G) (gs : list G),
  (length gs <= max_size -> exists p, pedersen_new max_size h gs = Some p /\
     (forall v r, length v = length gs -> pd_commit p v r = Some (r ** h + combination v gs)%grp) /\
     (forall v r, length v <> length gs -> pd_commit p v r = None)) /\
  (max_size < length gs -> pedersen_new max_size h gs = None).
Proof. exact (@new_commit). Qed.
Print Assumptions C266_commit.

Theorem C266_homomorphic : forall (K : fld) (G : group K) (p : pedersen G) v w r s c d,
  pd_commit p v r = Some c -> pd_commit p w s = Some d ->
  pd_commit p (vector_sum v w) (r + s)%fld = Some (c + d)%grp.
Proof. exact (@homomorphic). Qed.
Print Assumptions C266_homomorphic.

(** Two openings of one commitment are a relation between the generators, not trivial if the vectors differ. *)
Theorem C266_binding : forall (K : fld) (G : group K) (p : pedersen G) v w r s c,
  pd_commit p v r = Some c -> pd_commit p w s = Some c ->
  ((r - s)%fld ** pd_h p + combination (vector_difference v w) (pd_generators p) = gzero)%grp /\
  (v <> w -> exists i x, nth_error (vector_difference v w) i = Some x /\ x <> 0%fld).
Proof. exact (@opening_relation). Qed.
Print Assumptions C266_binding.

(** If the generators are multiples of h, a commitment to one vector is one to any other vector. *)
Theorem C266_hiding : forall (K : fld) (G : group K) (h : G) (logs : list K) v w r,
  length v = length logs -> length w = length logs ->
  exists s, pd_commit (mk_pedersen h (map (fun a => (a ** h)%grp) logs)) w s =
            pd_commit (mk_pedersen h (map (fun a => (a ** h)%grp) logs)) v r.
Proof. exact (@hiding). Qed.
Print Assumptions C266_hiding.

Example C266_nonvacuous :
  option_map val_of (pd_commit p13 [e13' 1; e13' 4] (e13' 6)) = Some 9%Z /\
  option_map val_of (pd_commit p13 [e13' 2; e13' 4] (e13' 11)) = Some 9%Z /\
  option_map val_of (pd_commit p13 [e13' 1] (e13' 6)) = None.
Proof. vm_compute. auto. Qed.

(** ** C267: batches of KZG commitments *)
(** Each call returns whether the vector fits; at the end there is one commitment for each index, that of the last call
    that returned true for it; it is the commitment made without a batch. Afterwards a new batch can be started. *)
Theorem C267_kzg_batch : forall (K : fld) (G : group K) (k : kzg G) d n qs, 0 < n -> Forall (fun q => snd q < n) qs ->
  exists out,
  session (kzg_step k) d n qs batch_new =
    Some (map (fun q => match kzg_value k (fst q) with Some _ => true | None => false end) qs, out, batch_new) /\
  length out = n /\ (forall i, i < n -> nth_error out i = Some (last_at (kzg_value k) d i qs)) /\
  (NoDup (map snd qs) -> forall q i c, In (q, i) qs -> kzg_value k q = Some c -> nth_error out i = Some c).
Proof. exact (@kzg_session). Qed.
Print Assumptions C267_kzg_batch.

(** Outside a batch, within another batch and beyond the end of the batch, nothing is returned. *)
Theorem C267_misuse : forall (K : fld) (G : group K) (k : kzg G) (p : pedersen G) (d : G),
  (forall q i s, b_mode s = false -> kzg_step k q i s = None) /\
  (forall q i s, b_mode s = false -> pd_step d p q i s = None) /\
  (forall n m s s', set_batch_mode d n s = Some s' -> 0 < n -> 0 < m -> set_batch_mode d m s' = None) /\
  (forall n qs q i r, 0 < n -> Forall (fun q => snd q < n) qs -> n <= i ->
     session (kzg_step k) d n (qs ++ (q, i) :: r) batch_new = None) /\
  (forall n qs q i r, 0 < n -> Forall (fun q => snd q < n) qs -> n <= i ->
     session (pd_step d p) d n (qs ++ (q, i) :: r) batch_new = None).
Proof. exact (@batch_misuse). Qed.
Print Assumptions C267_misuse.

Definition k13 : kzg P13 := mk_kzg [e13' 1 : P13; e13' 2 : P13; e13' 4 : P13] [e13' 3 : P13; e13' 5 : P13; e13' 6 : P13].
(** Index 1 is written twice, the last time with a vector that does not fit; index 2 never. *)
Example C267_nonvacuous :
  option_map (fun '(oks, out, _) => (oks, map val_of out))
    (session (kzg_step k13) (e13' 7 : P13) 3 [((false, [e13' 5; e13' 1]), 1); ((true, [e13' 2]), 0); ((false, [e13' 1; e13' 1; e13' 1; e13' 1]), 1)] batch_new)
  = Some ([true; true; false], [6; 7; 7]%Z) /\ option_map val_of (commit k13 [e13' 5; e13' 1]) = Some 7%Z.
Proof. vm_compute. auto. Qed.

(** ** C268: batches of Pedersen commitments *)
(** The commitment in the batch is not the commitment of the vector and the random value... *)
Theorem C268_batch_blinding_refuted : exists (p : pedersen P13) (d : P13) v r c c' oks s,
  session (pd_step d p) d 1 [((v, r), 0)] batch_new = Some (oks, [c], s) /\ oks = [true] /\
  pd_commit p v r = Some c' /\ c <> c'.
Proof. exact batch_blinding_lost. Qed.
Print Assumptions C268_batch_blinding_refuted.

(** ... but that of the vector and zero, whatever the random values. *)
Theorem C268_batch_unblinded_partial : forall (K : fld) (G : group K) (p : pedersen G) d n qs,
  0 < n -> Forall (fun q => snd q < n) qs -> exists out,
  session (pd_step d p) d n qs batch_new =
    Some (map (fun q => Nat.eqb (length (fst (fst q))) (length (pd_generators p))) qs, out, batch_new) /\
  length out = n /\ (forall i, i < n -> nth_error out i = Some (last_at (unblinded p) d i qs)) /\
  (NoDup (map snd qs) -> forall q i c, In (q, i) qs -> unblinded p q = Some c -> nth_error out i = Some c).
Proof. exact (@pedersen_session). Qed.
Print Assumptions C268_batch_unblinded_partial.

Example C268_nonvacuous :
  option_map (fun '(oks, out, _) => (oks, map val_of out))
    (session (pd_step (e13' 7 : P13) p13) (e13' 7 : P13) 2 [(([e13' 1; e13' 4], e13' 6), 1); (([e13' 1], e13' 6), 0)] batch_new)
  = Some ([true; false], [7; 10]%Z).
Proof. vm_compute. reflexivity. Qed.
