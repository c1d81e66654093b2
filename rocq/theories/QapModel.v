(** Model of zk/r1cs/constraint_system/quadratic_arithmetic_program.h. Only definitions. [None] is a CHECK failure, a failed
    unwrap() or an index outside a container. The matrices are those of R1csModel; the domain is that of FFTModel. *)
From Coq Require Import ZArith List Bool Arith.
From Verif Require Import Field BigIntModel ParallelizeModel SemigroupModel PolyModel FFTModel DomainModel R1csModel.
Import ListNotations.
Open Scope fld_scope.

Section Qap.
  Context {K : fld}.
  Notation pow x n := (do_pow (1 : K) fmul (fun y => y * y) [n%Z] x).

  (** quadratic_arithmetic_program.h:27-40 EvaluateConstraint. *)
  Definition evaluate_constraint (cells : list (cell K)) (z : list K) : option K :=
    fold_left (fun acc c =>
      match acc, nth_error z (snd c) with
      | Some sum, Some v => Some (if feqb (fst c) 1 then sum + v else sum + v * fst c)
      | _, _ => None
      end) cells (Some 0).

  (** 89-91, 92-94, 95-97: one of the three loops over the cells of row i: v[cell.index] += l[i] * cell.coefficient. *)
  Definition add_cell (li : K) (acc : option (list K)) (c : cell K) : option (list K) :=
    match acc with
    | None => None
    | Some v => match nth_error v (snd c) with
                | None => None
                | Some x => Some (set_at v (snd c) (x + li * fst c))
                end
    end.
  (** 88-98, for one of the three vectors: they are different vectors, so the loop over i is read as three loops. *)
  Definition add_rows (l : list K) (rows : list (list (cell K))) (n : nat) (v : option (list K)) : option (list K) :=
    fold_left (fun acc i =>
      match nth_error l i, nth_error rows i with
      | Some li, Some row => fold_left (add_cell li) row acc
      | _, _ => None
      end) (seq 0 n) v.
  (** 84-86: a[i] = l[num_constraints + i] for the instance variables. *)
  Fixpoint place (l : list K) (from todo i : nat) (a : list K) : option (list K) :=
    match todo with
    | O => Some a
    | S todo => match nth_error l (from + i), nth_error a i with
                | Some x, Some _ => place l from todo (S i) (set_at a i x)
                | _, _ => None
                end
    end.
  (** qap_instance_map_result.h:13-35 without the four counts, which are those of the matrices. *)
  Record instance_map_result := mk_instance_map { q_a : list K; q_b : list K; q_c : list K; q_t : K }.
  (** 49-103 InstanceMap. num_qap_variables + 1 = (num_instance_variables - 1) + num_witness_variables + 1; there is always
      an instance variable. *)
  Definition instance_map (threads : Z) (d : domain K) (m : matrices K) (x : K) : option instance_map_result :=
    if Nat.ltb (d_size d) (m_con m) then None
    else
      let t := evaluate_vanishing d x in
      match all_lagrange threads d x with
      | None => None
      | Some l =>
          let zeros := repeat 0 (m_inst m - 1 + m_wit m + 1) in
          match add_rows l (m_a m) (m_con m) (place l (m_con m) (m_inst m) 0 zeros),
                add_rows l (m_b m) (m_con m) (Some zeros), add_rows l (m_c m) (m_con m) (Some zeros) with
          | Some a, Some b, Some c => Some (mk_instance_map a b c t)
          | _, _, _ => None
          end
      end.

  (** 137-141, 156-160: element i of one of the vectors a, b, c for i below num_constraints. *)
  Definition constraint_values (rows : list (list (cell K))) (n : nat) (z : list K) : option (list K) :=
    fold_right (fun i acc =>
      match nth_error rows i with
      | None => None
      | Some row => match evaluate_constraint row z, acc with Some v, Some l => Some (v :: l) | _, _ => None end
      end) (Some []) (seq 0 n).
  (** 165-168: a[i] = full_assignments[i - num_constraints]. *)
  Fixpoint copy_instances (z : list K) (from todo i : nat) (a : list K) : option (list K) :=
    match todo with
    | O => Some a
    | S todo => match nth_error z i, nth_error a (from + i) with
                | Some x, Some _ => copy_instances z from todo (S i) (set_at a (from + i) x)
                | _, _ => None
                end
    end.
  (** univariate_evaluations.h operator[]: zero beyond the stored evaluations. *)
  Definition value_at (e : list K) (i : nat) : K := nth i e 0.
  (** 191-196: one iteration; a_evals.at(i) CHECKs that i is inside the vector. *)
  Definition quotient_value (a b c : list K) (v : K) (i : nat) : option K :=
    match nth_error a i with
    | None => None
    | Some x => Some ((x * value_at b i - value_at c i) * v)
    end.
  Fixpoint quotient_values (a b c : list K) (v : K) (todo i : nat) : option (list K) :=
    match todo with
    | O => Some []
    | S todo => match quotient_value a b c v i, quotient_values a b c v todo (S i) with
                | Some x, Some r => Some (x :: r)
                | _, _ => None
                end
    end.
  (** 127-201 WitnessMapFromMatrices. [gen] is F::Config::kSubgroupGenerator, [it] the entry of the twiddle cache that the
      transforms of this size use (the coset shares it, FFTModel). Loop iterations write different elements. *)
  Definition witness_map (threads : Z) (sched : scheduler) (d : domain K) (it : item K) (gen : K) (m : matrices K) (z : list K)
    : option (list K) :=
    if Nat.ltb (d_size d) (m_con m) then None
    else
      let pad v := v ++ repeat 0 (d_size d - m_con m) in
      match constraint_values (m_a m) (m_con m) z, constraint_values (m_b m) (m_con m) z, constraint_values (m_c m) (m_con m) z with
      | Some a, Some b, Some c =>
          match copy_instances z (m_con m) (m_inst m) 0 (pad a) with
          | None => None
          | Some a =>
              match ifft threads sched d it a, ifft threads sched d it (pad b), ifft threads sched d it (pad c), get_coset d gen with
              | Some a_poly, Some b_poly, Some c_poly, Some cd =>
                  match fft threads sched cd it a_poly, fft threads sched cd it b_poly, fft threads sched cd it c_poly with
                  | Some a, Some b, Some c =>
                      let v := evaluate_vanishing d gen in
                      if feqb v 0 then None
                      else match quotient_values a b c (finv v) (d_size d) 0 with
                           | None => None
                           | Some h => ifft threads sched cd it h
                           end
                  | _, _, _ => None
                  end
              | _, _, _, _ => None
              end
          end
      | _, _, _ => None
      end.

  (** 203-226 ComputeHQuery: the callback. Parallelize makes no empty chunk (C18), for which chunk.size() - 1 would
      wrap around. *)
  Fixpoint h_chunk (t x dinv xi : K) (chunk : list K) : list K :=
    match chunk with
    | [] => []
    | [_] => [xi * t * dinv]
    | _ :: r => xi * t * dinv :: h_chunk t x dinv (xi * x) r
    end.
  Definition compute_h_query (threads : Z) (d : domain K) (t x dinv : K) : option (list K) :=
    parallelize threads None (fun i c chunk => h_chunk t x dinv (pow x (trunc 64 (i * c))) chunk) (repeat 0 (d_size d - 1)).
End Qap.
Arguments instance_map_result K : clear implicits.
