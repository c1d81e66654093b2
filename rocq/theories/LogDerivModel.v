(** Model of the log-derivative lookup argument (zk/lookup/log_derivative_halo2/{prover_impl,evaluator,verifier}.h), of BinarySearchByKey (base/containers/container_util.h),
    of the shuffle argument (zk/shuffle/{prover_impl,evaluator,verifier}.h) and of CompressExpressions (zk/plonk/expressions/compress_expression.h). Only definitions.
    Columns of the constraint table are functions of the row, read below the domain size only. [n] is the domain size, [bf] the number of blinding factors, [u = n - (bf + 1)] the usable rows.
    Commitments, transcripts and the conversion to coefficients are left out. *)
From Coq Require Import ZArith List Arith Bool.
From Verif Require Import Field ParallelizeModel SemigroupModel GrandProductModel.
Import ListNotations.

(** container_util.h:168-185 BinarySearchByKey over entries with keys in Z; [left], [right] are offsets from begin. [Some None] is [end]; [None] is a dereference outside the container or, never reached, an
    exhausted [fuel]. *)
Fixpoint binary_search {A : Type} (key : A -> Z) (t : list A) (value : Z) (fuel left right : nat) : option (option nat) :=
  match fuel with
  | O => None
  | S fuel' =>
      if (left <? right)%nat then
        let mid := (left + (right - left) / 2)%nat in
        match nth_error t mid with
        | None => None
        | Some x =>
            if (key x <? value)%Z then binary_search key t value fuel' (mid + 1) right
            else if (value <? key x)%Z then binary_search key t value fuel' left mid
            else Some (Some mid)
        end
      else Some None
  end.
Definition binary_search_by_key {A : Type} (key : A -> Z) (t : list A) (value : Z) : option (option nat) :=
  binary_search key t value (S (length t)) 0 (length t).

Section LogDeriv.
  Variable K : fld.
  Open Scope fld_scope.
  (** ToBigInt. *)
  Variable big : K -> Z.

  (** CompressExpressions at one row: compress_expression.h:21-45, where the first expression is assigned and each later one folded in, and the verifiers' own version starting from zero
      (log_derivative_halo2/verifier.h:71-80, shuffle/verifier.h:70-79). [vals]: the values of the expressions at the row. *)
  Definition compress (theta : K) (vals : list K) : K :=
    match vals with
    | [] => 0
    | x :: r => fold_left (fun acc v => acc * theta + v) r x
    end.
  Definition compress_verifier (theta : K) (vals : list K) : K := fold_left (fun acc v => acc * theta + v) vals 0.

  (** ** ComputeMPoly, prover_impl.h:99-143. *)
  (** prover_impl.h:126-127 fetch_add on the counter of a row; [None] is an index outside the vector. The counters do not wrap: 2^64 increments are out of reach. *)
  Fixpoint bump (l : list nat) (i : nat) : option (list nat) :=
    match l, i with
    | [], _ => None
    | x :: r, O => Some (S x :: r)
    | x :: r, S i' => option_map (cons x) (bump r i')
    end.
  (** prover_impl.h:119-129: one input value. *)
  Definition count_one (sorted : list (nat * Z)) (counters : list nat) (v : K) : option (list nat) :=
    match binary_search_by_key snd sorted (big v) with
    | None => None
    | Some None => Some counters
    | Some (Some p) => match nth_error sorted p with
                       | None => None
                       | Some (index, _) => bump counters index
                       end
    end.
  Fixpoint count_all (sorted : list (nat * Z)) (counters : list nat) (vs : list K) : option (list nat) :=
    match vs with
    | [] => Some counters
    | v :: r => match count_one sorted counters v with None => None | Some c => count_all sorted c r end
    end.
  (** The whole function: [sort] stands for StableSort with the entries compared by value; [visit] is the order in which the threads happen to look the input values up (atomics, relaxed order);
      [counters] is the storage shared by all the lookups, of length [u]. Returned: the values of m and the storage left for the next lookup. *)
  Definition compute_m (sort : list (nat * Z) -> list (nat * Z)) (n u : nat) (table : nat -> K) (visit : list K) (counters : list nat) : option (list K * list nat) :=
    let sorted := sort (map (fun i => (i, big (table i))) (seq 0 u)) in
    match count_all sorted counters visit with
    | None => None
    | Some c => Some (map (fun i => if (i <? u)%nat then fnat (nth i c O) else 0) (seq 0 n), map (fun _ => O) c)
    end.

  (** ** CreateGrandSumPoly, prover_impl.h:186-310. *)
  (** ComputeLogDerivatives, 188-202. *)
  Definition log_chunk (evals : nat -> K) (beta : K) (call : Z * Z * Z) : option (list K) :=
    match call with (_, start, len) => invert (map (fun j => beta + evals j) (seq (Z.to_nat start) (Z.to_nat len))) end.
  Definition log_derivatives (threads : Z) (u : nat) (evals : nat -> K) (beta : K) : option (list K) :=
    all_chunks (map (log_chunk evals beta) (chunk_calls (Z.of_nat u) (size_per_thread threads (Z.of_nat u) None))).
  Definition add_rows (l r : list K) : list K := map (fun p => fst p + snd p) (combine l r).
  (** 221-233: the first input is assigned, the others added; [acc] is what storage.inputs_log_derivatives holds. *)
  Fixpoint inputs_sum (threads : Z) (u : nat) (inputs : list (nat -> K)) (beta : K) (first : bool) (acc : list K) : option (list K) :=
    match inputs with
    | [] => Some acc
    | f :: r => match log_derivatives threads u f beta with
                | None => None
                | Some l => inputs_sum threads u r beta false (if first then l else add_rows acc l)
                end
    end.
  (** 247-257: log_derivatives_diff, and grand_sum before the sums: zero, the first u - 1 differences, zeros. *)
  Definition differences (u : nat) (m : list K) (inputs_ld table_ld : list K) : list K :=
    map (fun i => cell inputs_ld i - cell m i * cell table_ld i) (seq 0 u).
  Definition grand_sum_initial (n u : nat) (diff : list K) : list K :=
    map (fun i => if (i =? 0)%nat then 0 else if (i <? u)%nat then cell diff (i - 1) else 0) (seq 0 n).
  (** 273-281: within a chunk each entry after the first is its predecessor plus a difference. *)
  Fixpoint chunk_sums (prev : K) (ds : list K) : list K :=
    match ds with [] => [] | d :: r => (prev + d) :: chunk_sums (prev + d) r end.
  Definition sum_chunk (gs diff : list K) (call : Z * Z * Z) : list K :=
    match call with
    | (_, start, len) => let s := Z.to_nat start in
        match Z.to_nat len with
        | O => []
        | S l => cell gs s :: chunk_sums (cell gs s) (map (fun i => cell diff (s + i - 1)) (seq 1 l))
        end
    end.
  (** 280: segment_sum[chunk_idx] = chunk.back(); [None] is an index outside the vector. *)
  Fixpoint put (l : list K) (i : nat) (x : K) : option (list K) :=
    match l, i with
    | [], _ => None
    | _ :: r, O => Some (x :: r)
    | y :: r, S i' => option_map (cons y) (put r i' x)
    end.
  Fixpoint put_backs (segment : list K) (chunks : list ((Z * Z * Z) * list K)) : option (list K) :=
    match chunks with
    | [] => Some segment
    | ((idx, _, _), c) :: r => match put segment (Z.to_nat idx) (last c 0) with None => None | Some s => put_backs s r end
    end.
  (** 283-285: prefix sums in place. *)
  Definition prefix_sums (l : list K) : list K := match l with [] => [] | x :: r => x :: chunk_sums x r end.
  (** 287-296: each chunk but the first is raised by the sum of the segments before it. *)
  Definition raise_chunk (segment : list K) (p : (Z * Z * Z) * list K) : list K :=
    match p with
    | ((idx, _, _), c) => if (idx =? 0)%Z then c else map (fun v => v + cell segment (Z.to_nat idx - 1)) c
    end.
  (** The build with OpenMP, 264-296. The first [u] rows are rewritten. *)
  Definition grand_sum_omp (threads : Z) (n u : nat) (diff table_ld : list K) : option (list K) :=
    let gs := grand_sum_initial n u diff in
    let calls := chunk_calls (Z.of_nat u) (size_per_thread threads (Z.of_nat u) None) in
    let chunks := map (fun c => (c, sum_chunk gs diff c)) calls in
    match put_backs table_ld chunks with
    | None => None
    | Some segment => Some (concat (map (raise_chunk (prefix_sums segment)) chunks) ++ skipn u gs)
    end.
  (** The build without, 297-300: std::partial_sum over all differences but the last, written from row 1 on. *)
  Definition grand_sum_serial (n u : nat) (diff : list K) : option (list K) :=
    let gs := grand_sum_initial n u diff in
    match removelast diff with
    | [] => Some gs
    | d :: r => Some (firstn 1 gs ++ (d :: chunk_sums d r) ++ skipn u gs)
    end.
  (** [stale] is what storage.inputs_log_derivatives holds from an earlier lookup. *)
  Definition create_grand_sum (omp : bool) (threads : Z) (n bf : nat) (rnd : nat -> K) (from : nat) (m : list K) (inputs : list (nat -> K)) (table : nat -> K) (beta : K) (stale : list K) : option (list K * nat) :=
    let u := (n - (bf + 1))%nat in
    match inputs_sum threads u inputs beta true stale, log_derivatives threads u table beta with
    | Some inputs_ld, Some table_ld =>
        let diff := differences u m inputs_ld table_ld in
        match (if omp then grand_sum_omp threads n u diff table_ld else grand_sum_serial n u diff) with
        | Some gs => blind_rows bf rnd from gs
        | None => None
        end
    | _, _ => None
    end.

  (** ** The constraint polynomials at one row: evaluator.h:135-163. [phi]: the values f_i + β; [tau]: t + β; [s], [s_next]: ϕ here and at the next row; [m]: m here. *)
  Definition product (l : list K) : K := fold_left (fun acc x => acc * x) l 1.
  Definition exclusive (l : list K) : K :=
    fold_left (fun acc i => acc + fold_left (fun a j => if (j =? i)%nat then a else a * cell l j) (seq 0 (length l)) 1) (seq 0 (length l)) 0.
  Definition evaluator_terms (l_first l_last l_active s s_next m tau : K) (phi : list K) : list K :=
    let inputs_prod := product phi in
    let lhs := tau * inputs_prod * (s_next - s) in
    let rhs := tau * exclusive phi - inputs_prod * m in
    [l_first * s; l_last * s; (lhs - rhs) * l_active].
  (** The accumulation into the quotient's numerator, evaluator.h:165-177: each term after a multiplication by y. *)
  Definition accumulate (y : K) (acc : K) (terms : list K) : K := fold_left (fun a t => a * y + t) terms acc.

  (** ** The verifier: verifier.h:34-51 and 82-116. [None]: the CHECK on BatchInverseInPlace fails, or [*tau.Inverse()] reads an empty optional. *)
  Definition verifier_terms (l_first l_last l_blind s s_next m t beta : K) (f : list K) : option (list K) :=
    let active := 1 - (l_last + l_blind) in
    let phi := map (fun x => x + beta) f in
    let tau := t + beta in
    let prod_fi := product phi in
    match invert phi with
    | None => None
    | Some inv =>
        let sum_inv := fold_left (fun acc x => acc + x) inv 0 in
        let lhs := tau * prod_fi * (s_next - s) in
        if feqb tau 0 then None
        else let rhs := tau * prod_fi * (sum_inv - m * finv tau) in
             Some [l_first * s; l_last * s; active * (lhs - rhs)]
    end.

  (** ** The shuffle argument. *)
  (** CreateGrandProductPoly with its callbacks, shuffle/prover_impl.h:70-81 and 190-210. *)
  Definition shuffle_grand_product (n bf : nat) (rnd : nat -> K) (from : nat) (gamma : K) (a s : nat -> K) : option (list K * nat) :=
    create_poly_serial n bf rnd from (fun j => a j + gamma) (fun j => s j + gamma).
  (** shuffle/verifier.h:30-49 and 81-93. *)
  Definition shuffle_verifier_terms (l_first l_last l_blind z z_next a s gamma : K) : list K :=
    [l_first * (1 - z); l_last * (z * z - z); (1 - (l_last + l_blind)) * (z_next * (s + gamma) - z * (a + gamma))].
  (** shuffle/evaluator.h:71-119 at one row: [evaluators] holds, for each argument, the values of the input's and of the shuffle's evaluator one after the other; [cosets] one grand product per argument,
      as (value, value at the next row). The grand product is read at the position of the evaluator. [None] is a read outside a vector. *)
  Fixpoint shuffle_evaluate_from (i : nat) (y : K) (l_first l_last l_active : K) (evaluators : list K) (cosets : list (K * K)) (acc : K) (fuel : nat) : option K :=
    match fuel with
    | O => Some acc
    | S fuel' =>
        if (i <? length evaluators)%nat then
          match nth_error evaluators i, nth_error evaluators (i + 1), nth_error cosets i with
          | Some input, Some value, Some (z, z_next) =>
              let acc := acc * y + l_first * (1 - z) in
              let acc := acc * y + l_last * (z * z - z) in
              let acc := acc * y + l_active * (z_next * value - z * input) in
              shuffle_evaluate_from (i + 2) y l_first l_last l_active evaluators cosets acc fuel'
          | _, _, _ => None
          end
        else Some acc
    end.
  (** evaluator.h:27-68 puts two evaluators per argument; 131-146 one grand product per argument. *)
  Definition shuffle_evaluate (y l_first l_last l_active : K) (args : list ((K * K) * (K * K))) (gamma acc : K) : option K :=
    let evaluators := flat_map (fun p => [fst (fst p) + gamma; snd (fst p) + gamma]) args in
    shuffle_evaluate_from 0 y l_first l_last l_active evaluators (map snd args) acc (S (length evaluators)).
End LogDeriv.
Arguments compress {K}. Arguments compress_verifier {K}. Arguments count_one {K}. Arguments count_all {K}. Arguments compute_m {K}. Arguments log_chunk {K}. Arguments log_derivatives {K}.
Arguments inputs_sum {K}. Arguments add_rows {K}. Arguments differences {K}. Arguments grand_sum_initial {K}. Arguments chunk_sums {K}. Arguments sum_chunk {K}. Arguments put {K}. Arguments put_backs {K}.
Arguments prefix_sums {K}. Arguments raise_chunk {K}. Arguments grand_sum_omp {K}. Arguments grand_sum_serial {K}. Arguments create_grand_sum {K}. Arguments product {K}. Arguments exclusive {K}.
Arguments evaluator_terms {K}. Arguments accumulate {K}. Arguments verifier_terms {K}. Arguments shuffle_grand_product {K}. Arguments shuffle_verifier_terms {K}. Arguments shuffle_evaluate_from {K}. Arguments shuffle_evaluate {K}.
