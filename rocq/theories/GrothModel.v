(** Model of zk/r1cs/groth16: keys, prover, verifier and re-randomization. Only definitions. [None] is a CHECK failure, a
    failed unwrap(), a Load that returns false or an index outside a container. The groups are abstract: points of every
    representation stand for group elements (C46-C49 and C84-C87 treat the representations, C50 and C51 the multi-scalar
    multiplications), and the pairing is any bilinear map. Sampling is replaced by arguments. *)
From Coq Require Import ZArith List Bool Arith.
From Verif Require Import Field ParallelizeModel SemigroupModel FFTModel R1csModel R1csSpec QapModel.
Import ListNotations.
Open Scope fld_scope.

(** A group with scalars from [K]: the points of a curve's subgroup of prime order and its scalar field. *)
Record group (K : fld) : Type := mk_group {
  pt :> Type;
  gzero : pt; gadd : pt -> pt -> pt; gneg : pt -> pt; gmul : K -> pt -> pt;
  gadd_comm : forall u v, gadd u v = gadd v u;
  gadd_assoc : forall u v w, gadd u (gadd v w) = gadd (gadd u v) w;
  gadd_zero : forall u, gadd gzero u = u;
  gadd_neg : forall u, gadd u (gneg u) = gzero;
  gmul_one : forall u, gmul 1 u = u;
  gmul_mul : forall a b u, gmul (a * b) u = gmul a (gmul b u);
  gmul_add_l : forall a b u, gmul (a + b) u = gadd (gmul a u) (gmul b u);
  gmul_add_r : forall a u v, gmul a (gadd u v) = gadd (gmul a u) (gmul a v)
}.
Declare Scope grp_scope.
Delimit Scope grp_scope with grp.
Arguments gzero {K g}. Arguments gadd {K g}. Arguments gneg {K g}. Arguments gmul {K g} _%fld _%grp.
Notation "u + v" := (gadd u v) : grp_scope.
Notation "- u" := (gneg u) : grp_scope.
Notation "a ** u" := (gmul a u) (at level 40) : grp_scope.

(** math/elliptic_curves/pairing: a bilinear map; the target group is written additively. *)
Record pairing {K : fld} (G1 G2 GT : group K) : Type := mk_pairing {
  pair_of :> G1 -> G2 -> GT;
  pair_add_l : forall u v w, pair_of (u + v)%grp w = (pair_of u w + pair_of v w)%grp;
  pair_add_r : forall u v w, pair_of u (v + w)%grp = (pair_of u v + pair_of u w)%grp;
  pair_mul_l : forall a u v, pair_of (a ** u)%grp v = (a ** pair_of u v)%grp;
  pair_mul_r : forall a u v, pair_of u (a ** v)%grp = (a ** pair_of u v)%grp;
  gt_eqb : GT -> GT -> bool;
  gt_eqb_eq : forall x y, gt_eqb x y = true <-> x = y
}.
Arguments gt_eqb {K G1 G2 GT}.

(** math/elliptic_curves/msm/variable_base_msm.h Run: [None] is a return of false (C50). *)
Fixpoint msm_sum {K : fld} {G : group K} (bases : list G) (scalars : list K) : G :=
  match bases, scalars with
  | b :: bs, s :: ss => (s ** b + msm_sum bs ss)%grp
  | _, _ => gzero
  end.
Definition msm_run {K : fld} {G : group K} (bases : list G) (scalars : list K) : option G :=
  if Nat.eqb (length bases) (length scalars) then Some (msm_sum bases scalars) else None.
(** math/elliptic_curves/msm/fixed_base_msm.h Run (C51). *)
Definition fixed_base {K : fld} {G : group K} (base : G) (scalars : list K) : list G := map (fun s => (s ** base)%grp) scalars.

(** What the library and the machine fix: threads, the schedule of the transforms, TACHYON_USE_SMALL twiddles, the two-adic
    roots of the scalar field and its multiplicative generator, base::UnstableSort on terms. *)
Record env (K : fld) : Type := mk_env {
  e_threads : Z; e_small : bool; e_sched : scheduler; e_adicity : nat; e_root : K; e_gen : K; e_sort : lc K -> lc K
}.
Arguments e_threads {K}. Arguments e_small {K}. Arguments e_sched {K}. Arguments e_adicity {K}. Arguments e_root {K}.
Arguments e_gen {K}. Arguments e_sort {K}.

Section Groth.
  Context {K : fld} {G1 G2 GT : group K}.

  (** toxic_waste.h:98-105; x is sampled by PreLoad (key.h:60, SampleX) and given here. *)
  Record toxic_waste := mk_toxic { t_alpha : K; t_beta : K; t_gamma : K; t_delta : K; t_x : K; t_g1 : G1; t_g2 : G2 }.
  (** verifying_key.h:147-157, proving_key.h:203-220, proof.h, prepared_verifying_key.h:61-68. *)
  Record verifying_key := mk_vk { vk_alpha : G1; vk_beta : G2; vk_gamma : G2; vk_delta : G2; vk_l : list G1 }.
  Record proving_key := mk_pk {
    pk_vk : verifying_key; pk_beta : G1; pk_delta : G1;
    pk_a : list G1; pk_b1 : list G1; pk_b2 : list G2; pk_h : list G1; pk_l : list G1 }.
  Record proof := mk_proof { pr_a : G1; pr_b : G2; pr_c : G1 }.
  Record prepared_key := mk_pvk { pvk_vk : verifying_key; pvk_alpha_beta : GT; pvk_delta_neg : G2; pvk_gamma_neg : G2 }.

  (** key.h:46-58 and prove.h:199-210: the constraint system, its matrices and the domain. *)
  Definition run_circuit (e : env K) (setup : bool) (calls : circuit K) : option (cs K * matrices K * domain K) :=
    match synthesize (new_cs setup true false) calls with
    | None => None
    | Some s =>
        match finalize (e_sort e) s with
        | None => None
        | Some s' =>
            match to_matrices s' with
            | Some (Some m) =>
                match create_domain (e_adicity e) (e_root e) (m_con m + m_inst m) with
                | None => None
                | Some d => Some (s', m, d)
                end
            | _ => None
            end
        end
    end.
  (** key.h:43-77 PreLoad; the counts of non-zero elements only choose window sizes. *)
  Definition pre_load (e : env K) (t : toxic_waste) (calls : circuit K) : option (matrices K * domain K * instance_map_result K) :=
    match run_circuit e true calls with
    | None => None
    | Some (_, m, d) => option_map (fun q => (m, d, q)) (instance_map (e_threads e) d m (t_x t))
    end.
  (** key.h:80-88 ComputeABC. *)
  Definition compute_abc (t : toxic_waste) (inverse a b c : K) : K := (t_beta t * a + t_alpha t * b + c) * inverse.
  (** verifying_key.h:92-96, proving_key.h:118-122: l[i] from a[offset + i], b[offset + i], c[offset + i]. *)
  Fixpoint abc_values (t : toxic_waste) (inverse : K) (q : instance_map_result K) (offset todo : nat) : option (list K) :=
    match todo with
    | O => Some []
    | S todo =>
        match nth_error (q_a q) offset, nth_error (q_b q) offset, nth_error (q_c q) offset with
        | Some a, Some b, Some c => option_map (cons (compute_abc t inverse a b c)) (abc_values t inverse q (S offset) todo)
        | _, _, _ => None
        end
    end.
  (** verifying_key.h:78-122 Load, the last overload. *)
  Definition vk_from (t : toxic_waste) (m : matrices K) (q : instance_map_result K) (gamma_inverse : K) : option verifying_key :=
    option_map (fun l => mk_vk (t_alpha t ** t_g1 t)%grp (t_beta t ** t_g2 t)%grp (t_gamma t ** t_g2 t)%grp (t_delta t ** t_g2 t)%grp
                           (fixed_base (t_g1 t) l))
      (abc_values t gamma_inverse q 0 (m_inst m)).
  (** verifying_key.h:63-76 Load, the first two overloads. *)
  Definition vk_load (e : env K) (t : toxic_waste) (calls : circuit K) : option verifying_key :=
    match pre_load e t calls with
    | None => None
    | Some (m, _, q) => if feqb (t_gamma t) 0 then None else vk_from t m q (finv (t_gamma t))
    end.
  (** proving_key.h:82-185 Load. *)
  Definition pk_load (e : env K) (t : toxic_waste) (calls : circuit K) : option proving_key :=
    match batch_inverse 0 1 fmul (fun x : K => if feqb x 0 then None else Some (finv x)) (fun x => feqb x 0) (fun x => feqb x 1)
            (e_threads e) true [t_gamma t; t_delta t] [t_gamma t; t_delta t] 1 with
    | Some [gamma_inverse; delta_inverse] =>
        match pre_load e t calls with
        | None => None
        | Some (m, d, q) =>
            match vk_from t m q gamma_inverse, compute_h_query (e_threads e) d (q_t q) (t_x t) delta_inverse,
                  abc_values t delta_inverse q (m_inst m) (m_wit m) with
            | Some vk, Some h, Some l =>
                Some (mk_pk vk (t_beta t ** t_g1 t)%grp (t_delta t ** t_g1 t)%grp
                        (fixed_base (t_g1 t) (q_a q)) (fixed_base (t_g1 t) (q_b q)) (fixed_base (t_g2 t) (q_b q))
                        (fixed_base (t_g1 t) h) (fixed_base (t_g1 t) l))
            | _, _, _ => None
            end
        end
    | _ => None
    end.

  (** prove.h:33-50 CalculateCoeff. *)
  Definition calculate_coeff {G : group K} (initial : G) (query : list G) (vk_param : G) (assignments : list K) : option G :=
    match query with
    | [] => None
    | q0 :: qs => option_map (fun acc => (initial + q0 + acc + vk_param)%grp) (msm_run qs assignments)
    end.
  (** prove.h:103-112: h(x) t(x) / delta. *)
  Definition h_accumulate (query : list G1) (h : list K) : option G1 :=
    if Nat.ltb (length query) (length h) then msm_run query (removelast h) else msm_run (firstn (length h) query) h.
  (** prove.h:52-161 CreateProofWithAssignment without the GPU variant; instance_assignments is not used. *)
  Definition create_proof (pk : proving_key) (r s : K) (h witness full : list K) : option proof :=
    match msm_run (pk_l pk) witness, h_accumulate (pk_h pk) h with
    | Some witness_acc, Some h_acc =>
        let r_delta := (r ** pk_delta pk)%grp in
        match calculate_coeff r_delta (pk_a pk) (vk_alpha (pk_vk pk)) full,
              calculate_coeff (s ** vk_delta (pk_vk pk))%grp (pk_b2 pk) (vk_beta (pk_vk pk)) full with
        | Some a, Some b2 =>
            let as_ := (s ** a)%grp in
            match (if feqb r 0 then Some as_
                   else option_map (fun b1 => (as_ + r ** b1 + - (s ** r_delta))%grp)
                          (calculate_coeff (s ** pk_delta pk)%grp (pk_b1 pk) (pk_beta pk) full)) with
            | None => None
            | Some c => Some (mk_proof a b2 (c + witness_acc + h_acc)%grp)
            end
        | _, _ => None
        end
    | _, _ => None
    end.
  (** prove.h:190-219 CreateProofWithReduction; quadratic_arithmetic_program.h:107-125 WitnessMap, which appends the witnesses to
      the instance variables. [span.subspan(1)] needs an element. *)
  Definition create_proof_with_reduction (e : env K) (calls : circuit K) (pk : proving_key) (r s : K) : option proof :=
    match run_circuit e false calls with
    | None => None
    | Some (c, m, d) =>
        match build_item (e_small e) (e_threads e) (e_sched e) d false with
        | None => None
        | Some it =>
            match witness_map (e_threads e) (e_sched e) d it (e_gen e) m (inst c ++ wit c), inst c ++ wit c with
            | Some h, _ :: full => create_proof pk r s h (wit c) full
            | _, _ => None
            end
        end
    end.

  (** prove.h:245-296 ReRandomizeProof with the numbers [r1], [r2] it draws; when both are zero it draws again. *)
  Definition re_randomize (vk : verifying_key) (p : proof) (r1 r2 : K) : option proof :=
    if feqb r1 0 then None
    else Some (mk_proof (finv r1 ** pr_a p)%grp (r1 ** (r2 ** vk_delta vk + pr_b p))%grp (r2 ** pr_a p + pr_c p)%grp).
  (** The loop of prove.h:269-272: the first draw that is not zero twice; [None] if there is none. *)
  Fixpoint draw (randoms : list (K * K)) : option (K * K) :=
    match randoms with
    | [] => None
    | (r1, r2) :: rest => if feqb r1 0 && feqb r2 0 then draw rest else Some (r1, r2)
    end.

  (** prepared_verifying_key.h:70-88 ToPreparedVerifyingKey. *)
  Definition prepare (e : pairing G1 G2 GT) (vk : verifying_key) : prepared_key :=
    mk_pvk vk (e (vk_alpha vk) (vk_beta vk)) (- vk_delta vk)%grp (- vk_gamma vk)%grp.
  (** verify.h:20-35 PrepareInputs: [Some None] is a return of false. *)
  Definition prepare_inputs (pvk : prepared_key) (public : list K) : option (option G1) :=
    match vk_l (pvk_vk pvk) with
    | [] => None
    | l0 :: ls => Some (option_map (fun p => (p + l0)%grp) (msm_run ls public))
    end.
  (** verify.h:37-60 VerifyProofWithPreparedInputs; Pairing multiplies (here: adds) the pairings of the pairs. *)
  Definition verify_prepared (e : pairing G1 G2 GT) (pvk : prepared_key) (p : proof) (prepared : G1) : bool :=
    gt_eqb e (e (pr_a p) (pr_b p) + e prepared (pvk_gamma_neg pvk) + e (pr_c p) (pvk_delta_neg pvk))%grp (pvk_alpha_beta pvk).
  (** verify.h:62-74 VerifyProof. *)
  Definition verify (e : pairing G1 G2 GT) (pvk : prepared_key) (p : proof) (public : list K) : option bool :=
    match prepare_inputs pvk public with
    | None => None
    | Some None => Some false
    | Some (Some prepared) => Some (verify_prepared e pvk p prepared)
    end.
End Groth.
Arguments toxic_waste {K}. Arguments verifying_key {K}. Arguments proving_key {K}. Arguments proof {K}. Arguments prepared_key {K}.
