(** Model of crypto/commitments/pedersen/pedersen.h and of the batch mode of vector_commitment_scheme.h, pedersen.h and
    kzg.h. The CPU paths. [None] is a failed CHECK or an index outside a container; an inner [None] or [false] is a return
    of false. As in KzgModel.v the groups are abstract, so conversions between kinds of points are the identity. *)
From Coq Require Import ZArith List Bool Arith.
From Verif Require Import Field GrothModel KzgModel.
Import ListNotations.

Section Pedersen.
  Context {K : fld} {G : group K}.

  (** pedersen.h:225-226, the data members without the batch. *)
  Record pedersen := mk_pedersen { pd_h : G; pd_generators : list G }.
  (** pedersen.h:49-62 the constructors. *)
  Definition pedersen_new (max_size : nat) (h : G) (generators : list G) : option pedersen :=
    if Nat.leb (length generators) max_size then Some (mk_pedersen h generators) else None.
  (** pedersen.h:205-223 ComputeCommitment. *)
  Definition compute_commitment (p : pedersen) (r : K) (msm_result : G) : G := (r ** pd_h p + msm_result)%grp.
  (** pedersen.h:170-188 DoCommit; VariableBaseMSM::Run is C50. *)
  Definition pd_commit (p : pedersen) (v : list K) (r : K) : option G :=
    option_map (compute_commitment p r) (msm_run (pd_generators p) v).

  (** ** Batch mode *)
  (** batch_commitment_state.h:10-12 and cpu_batch_commitments_. *)
  Record batch := mk_batch { b_mode : bool; b_count : nat; b_slots : list G }.
  Definition batch_new : batch := mk_batch false 0 [].
  (** std::vector::resize; [d] is a new Bucket. *)
  Definition resize (d : G) (n : nat) (l : list G) : list G := firstn n l ++ repeat d (n - length l).
  Fixpoint store (l : list G) (i : nat) (g : G) : list G :=
    match l, i with
    | [], _ => []
    | _ :: r, O => g :: r
    | x :: r, S j => x :: store r j g
    end.

  (** vector_commitment_scheme.h:36-44 SetBatchMode, with ResizeBatchCommitments (pedersen.h:87-98, kzg.h:116-126). *)
  Definition set_batch_mode (d : G) (n : nat) (s : batch) : option batch :=
    if Nat.eqb n 0 then Some s
    else if Nat.eqb (b_count s) 0 then Some (mk_batch true n (resize d n (b_slots s)))
    else None.
  (** msm.Run(bases, scalars, &slots[index]): false leaves the slot as it was. *)
  Definition run_into (result : option G) (index : nat) (s : batch) : option (bool * batch) :=
    if Nat.ltb index (length (b_slots s)) then
      match result with
      | Some g => Some (true, mk_batch (b_mode s) (b_count s) (store (b_slots s) index g))
      | None => Some (false, s)
      end
    else None.
  (** vector_commitment_scheme.h:124-133 Commit with a random value and an index; pedersen.h:190-203 DoCommit. *)
  Definition pd_commit_at (d : G) (p : pedersen) (v : list K) (r : K) (index : nat) (s : batch) : option (bool * batch) :=
    if b_mode s then
      let slots := if Nat.eqb (length (b_slots s)) (b_count s) then b_slots s else resize d (b_count s) (b_slots s) in
      run_into (msm_run (pd_generators p) v) index (mk_batch (b_mode s) (b_count s) slots)
    else None.
  (** univariate_polynomial_commitment_scheme.h:40-46, 59-66; kzg.h:232-241, 254-263, 304-317. *)
  Definition kzg_commit_at (k : kzg G) (v : list K) (index : nat) (s : batch) : option (bool * batch) :=
    if b_mode s then run_into (do_msm (k_powers k) v) index s else None.
  Definition kzg_commit_lagrange_at (k : kzg G) (v : list K) (index : nat) (s : batch) : option (bool * batch) :=
    if b_mode s then run_into (do_msm (k_lagrange k) v) index s else None.
  (** pedersen.h:100-139, kzg.h:128-169 GetBatchCommitments; BatchNormalize is C54. A vector moved from is empty. *)
  Definition get_batch (s : batch) : list G * batch := (b_slots s, mk_batch false 0 []).

  (** A list of calls [step request index], each with the bool it returned. *)
  Fixpoint calls {Q : Type} (step : Q -> nat -> batch -> option (bool * batch)) (qs : list (Q * nat)) (s : batch)
    : option (list bool * batch) :=
    match qs with
    | [] => Some ([], s)
    | (q, i) :: r =>
        match step q i s with
        | None => None
        | Some (ok, s1) =>
            match calls step r s1 with
            | None => None
            | Some (oks, s2) => Some (ok :: oks, s2)
            end
        end
    end.
  (** SetBatchMode, the calls, GetBatchCommitments. *)
  Definition session {Q : Type} (step : Q -> nat -> batch -> option (bool * batch)) (d : G) (n : nat) (qs : list (Q * nat)) (s : batch)
    : option (list bool * list G * batch) :=
    match set_batch_mode d n s with
    | None => None
    | Some s1 =>
        match calls step qs s1 with
        | None => None
        | Some (oks, s2) => let '(out, s3) := get_batch s2 in Some (oks, out, s3)
        end
    end.
  Definition pd_step (d : G) (p : pedersen) (q : list K * K) := pd_commit_at d p (fst q) (snd q).
  (** [true]: CommitLagrange. *)
  Definition kzg_step (k : kzg G) (q : bool * list K) :=
    if fst q then kzg_commit_lagrange_at k (snd q) else kzg_commit_at k (snd q).
End Pedersen.
Arguments pedersen {K} G. Arguments batch {K} G.
