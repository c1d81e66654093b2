(** Model of math/polynomials/multivariate (dense multilinear evaluations, their operators, linear combinations) and of
    crypto/sumcheck/multilinear. Only definitions. [None] is a CHECK failure or an index outside a container; an inner
    [None] or [false] is what the program returns. Loops that write distinct elements (OMP_PARALLEL_FOR) are maps.
    A shared pointer is a number, and [heap] says which evaluations are stored there. *)
From Coq Require Import ZArith List Bool Arith.
From Verif Require Import Field BitsModel ParallelizeModel SemigroupModel PolyModel.
Import ListNotations.
Open Scope fld_scope.

Section Sumcheck.
  Context {K : fld}.

  (** ** multilinear_dense_evaluations.h; a value is its vector evaluations_ *)
  (** :109-111 Degree. *)
  Definition mle_degree (l : list K) : nat := Z.to_nat (safe_log2_ceiling 64 (Z.of_nat (length l))).
  (** :39-47 the constructors; [md] is MaxDegree. *)
  Definition mle_make (md : nat) (l : list K) : option (list K) := if Nat.leb (mle_degree l) md then Some l else None.
  (** :97-101 IsZero. *)
  Definition mle_is_zero (l : list K) : bool := match l with [] => true | _ => forallb (fun x => feqb x 0) l end.
  (** operator== of vectors. *)
  Fixpoint vec_eqb (a b : list K) : bool :=
    match a, b with
    | [], [] => true
    | x :: a, y :: b => feqb x y && vec_eqb a b
    | _, _ => false
    end.
  (** :69-77 operator==. *)
  Definition mle_eqb (a b : list K) : bool :=
    match a, b with
    | [], _ => mle_is_zero b
    | _, [] => mle_is_zero a
    | _, _ => vec_eqb a b
    end.
  (** :90-95 operator[]. *)
  Definition mle_at (l : list K) (i : nat) : K := match nth_error l i with Some x => x | None => 0 end.
  (** :188-192: the pass for one variable, from entry [b] on, [m] entries. *)
  Fixpoint fix_pass (r : K) (b m : nat) (l : list K) : option (list K) :=
    match m with
    | O => Some l
    | S m =>
        match nth_error l (2 * b), nth_error l (2 * b + 1) with
        | Some lo, Some hi => fix_pass r (S b) m (set_nth b (lo + r * (hi - lo)) l)
        | _, _ => None
        end
    end.
  (** :186-193: the loop over the variables; [n] variables are left. *)
  Fixpoint fix_loop (n : nat) (point : list K) (l : list K) : option (list K) :=
    match point with
    | [] => Some l
    | r :: point =>
        match fix_pass r 0 (Nat.pow 2 (n - 1)) l with
        | None => None
        | Some l => fix_loop (n - 1) point l
        end
    end.
  (** :163-195 RunFixVariables. *)
  Definition run_fix (point l : list K) : option (list K) :=
    let k := length point in
    let n := mle_degree l in
    if Nat.leb k n then option_map (fun l => vec_resize 0 l (Nat.pow 2 (n - k))) (fix_loop n point l) else None.
  (** :113-117 FixVariables; :119-122 FixVariablesInPlace is [run_fix]. *)
  Definition fix_variables (md : nat) (point l : list K) : option (list K) :=
    match run_fix point l with None => None | Some p => mle_make md p end.
  (** :134-143 Evaluate. *)
  Definition mle_evaluate (md : nat) (l point : list K) : option K :=
    if Nat.eqb (length point) (mle_degree l) then
      match fix_variables md point l with
      | None => None
      | Some f => if mle_is_zero f then Some 0 else nth_error f 0
      end
    else None.

  (** ** multilinear_extension_ops.h *)
  Definition zip_with (f : K -> K -> K) (a b : list K) : list K := map (fun p => f (fst p) (snd p)) (combine a b).
  (** :99-109 Negate; :111-122 NegateInPlace has the same result. *)
  Definition mle_negate (md : nat) (a : list K) : option (list K) :=
    match a with [] => Some a | _ => mle_make md (map fopp a) end.
  (** :21-39 Add, :41-58 AddInPlace without the constructor's check. *)
  Definition mle_add (md : nat) (a b : list K) : option (list K) :=
    match a, b with
    | [], _ => Some b
    | _, [] => Some a
    | _, _ => if Nat.eqb (length a) (length b) then mle_make md (zip_with fadd a b) else None
    end.
  (** :60-78 Sub, :80-97 SubInPlace. *)
  Definition mle_sub (md : nat) (a b : list K) : option (list K) :=
    match a, b with
    | [], _ => mle_negate md b
    | _, [] => Some a
    | _, _ => if Nat.eqb (length a) (length b) then mle_make md (zip_with fsub a b) else None
    end.
  (** :124-138 Mul, :140-158 MulInPlace. *)
  Definition mle_mul (md : nat) (a b : list K) : option (list K) :=
    match a, b with
    | [], _ => Some []
    | _, [] => Some []
    | _, _ => if Nat.eqb (length a) (length b) then mle_make md (zip_with fmul a b) else None
    end.
  (** :160-194 Div; the inner [None] is std::nullopt. *)
  Definition mle_div (md : nat) (a b : list K) : option (option (list K)) :=
    match b, a with
    | [], _ => Some None
    | _, [] => Some (Some a)
    | _, _ =>
        if Nat.eqb (length a) (length b) then
          if existsb (fun y => feqb y 0) b then Some None
          else option_map Some (mle_make md (zip_with fdiv a b))
        else Some None
    end.

  (** ** linear_combination.h, linear_combination_term.h *)
  (** linear_combination_term.h:16-20, linear_combination.h:132-146. *)
  Record term := mk_term { t_coeff : K; t_indexes : list nat }.
  Record lincomb := mk_lc { lc_max : nat; lc_vars : nat; lc_terms : list term; lc_flat : list nat; lc_lookup : list (nat * nat) }.
  (** linear_combination.h:30-32. *)
  Definition lc_new (n : nat) : lincomb := mk_lc 0 n [] [] [].
  Section Heap.
    Variable heap : nat -> list K.
    (** linear_combination.h:67-77, the callback of base::Map for one pointer. *)
    Definition add_pointer (n : nat) (s : list nat * list (nat * nat) * list nat) (ptr : nat) : option (list nat * list (nat * nat) * list nat) :=
      let '(flat, table, indexes) := s in
      if Nat.eqb (mle_degree (heap ptr)) n then
        match find (fun e => Nat.eqb (fst e) ptr) table with
        | Some e => Some (flat, table, indexes ++ [snd e])
        | None => Some (flat ++ [ptr], table ++ [(ptr, length flat)], indexes ++ [length flat])
        end
      else None.
    (** linear_combination.h:62-79 AddTerm. *)
    Definition add_lc_term (lc : lincomb) (c : K) (ptrs : list nat) : option lincomb :=
      match ptrs with
      | [] => Some lc
      | _ =>
          match ofold (add_pointer (lc_vars lc)) ptrs (lc_flat lc, lc_lookup lc, []) with
          | None => None
          | Some (flat, table, indexes) =>
              Some (mk_lc (Nat.max (lc_max lc) (length ptrs)) (lc_vars lc) (lc_terms lc ++ [mk_term c indexes]) flat table)
          end
      end.
    (** A run of AddTerm. *)
    Definition build_lc (n : nat) (ts : list (K * list nat)) : option lincomb :=
      ofold (fun lc t => add_lc_term lc (fst t) (snd t)) ts (lc_new n).

    (** base::ParallelizeMap over [size] with a threshold: the chunks as (start, length). *)
    Definition size_chunks (threads threshold : Z) (size : nat) : list (nat * nat) :=
      map (fun c => match c with (_, start, len) => (Z.to_nat start, Z.to_nat len) end)
        (chunk_calls (Z.of_nat size) (size_per_thread threads (Z.of_nat size) (Some threshold))).
    (** linear_combination_term.h:55-62: the product of the [i]-th evaluations, from [acc] on. An index outside
        flattened_ml_evaluations is out of bounds. *)
    Definition entry_product (flat : list nat) (i : nat) (indexes : list nat) : option K :=
      ofold (fun acc index => match nth_error flat index with
                              | None => None
                              | Some ptr => Some (match nth_error (heap ptr) i with Some e => acc * e | None => acc end)
                              end) indexes 1.
    (** linear_combination_term.h:36-68 Combine; kParallelFactor is 16. *)
    Definition term_combine (threads : Z) (n : nat) (flat : list nat) (t : term) : option K :=
      match t_indexes t with
      | [] => None
      | _ =>
          match all_some (map (fun c => ofold (fun sum i => option_map (fadd sum) (entry_product flat i (t_indexes t))) (seq (fst c) (snd c)) 0)
                            (size_chunks threads (16 * threads) (Nat.pow 2 n))) with
          | None => None
          | Some sums => Some (fold_left fadd sums 0 * t_coeff t)
          end
      end.
    (** linear_combination_term.h:23-33 Evaluate, 79-89 EvaluateSerial. *)
    Definition term_evaluate (threads : Z) (md : nat) (flat : list nat) (point : list K) (t : term) : option K :=
      match all_some (parallelize_map_by_chunk (num_elements_per_thread threads (Z.of_nat (length (t_indexes t))) None)
                        (fun _ _ chunk => ofold (fun acc index => match nth_error flat index with
                                                                  | None => None
                                                                  | Some ptr => option_map (fmul acc) (mle_evaluate md (heap ptr) point)
                                                                  end) chunk 1) (t_indexes t)) with
      | None => None
      | Some results => Some (t_coeff t * fold_left fmul results 1)
      end.
    (** linear_combination.h:84-92 Combine with 109-119 CombineSerial, 97-106 Evaluate with 121-130 EvaluateSerial:
        the sum of [f] over the terms. *)
    Definition over_terms (threads : Z) (f : term -> option K) (terms : list term) : option K :=
      option_map (fun results => fold_left fadd results 0)
        (all_some (parallelize_map_by_chunk (num_elements_per_thread threads (Z.of_nat (length terms)) None)
                     (fun _ _ chunk => ofold (fun acc t => option_map (fadd acc) (f t)) chunk 0) terms)).
    Definition lc_combine (threads : Z) (lc : lincomb) : option K :=
      over_terms threads (term_combine threads (lc_vars lc) (lc_flat lc)) (lc_terms lc).
    Definition lc_evaluate (threads : Z) (md : nat) (lc : lincomb) (point : list K) : option K :=
      if Nat.eqb (length point) (lc_vars lc) then over_terms threads (term_evaluate threads md (lc_flat lc) point) (lc_terms lc) else None.

    (** ** sumcheck_proving_key.h:15-37, sumcheck_verifying_key.h:15-24 *)
    Record proving_key := mk_pk { pk_max : nat; pk_vars : nat; pk_terms : list term; pk_flat : list (list K) }.
    (** sumcheck_proving_key.h:20-28 Build. *)
    Definition pk_build (lc : lincomb) : proving_key := mk_pk (lc_max lc) (lc_vars lc) (lc_terms lc) (map heap (lc_flat lc)).
    (** linear_combination_term.h:70-72. *)
    Definition term_eqb (s t : term) : bool :=
      feqb (t_coeff s) (t_coeff t) && if list_eq_dec Nat.eq_dec (t_indexes s) (t_indexes t) then true else false.
    Fixpoint all_eqb {A : Type} (eqb : A -> A -> bool) (a b : list A) : bool :=
      match a, b with
      | [], [] => true
      | x :: a, y :: b => eqb x y && all_eqb eqb a b
      | _, _ => false
      end.
    (** sumcheck_proving_key.h:30-33 operator==: the last conjunct compares a member with itself. *)
    Definition pk_eqb (a b : proving_key) : bool :=
      Nat.eqb (pk_max a) (pk_max b) && Nat.eqb (pk_vars a) (pk_vars b) && all_eqb term_eqb (pk_terms a) (pk_terms b) &&
      all_eqb mle_eqb (pk_flat a) (pk_flat a).
  End Heap.

  (** ** sumcheck_prover.h *)
  (** :160-173, without randomness_, which is only written. *)
  Record prover := mk_prover { p_round : nat; p_vars : nat; p_max : nat; p_terms : list term; p_tables : list (list K) }.
  (** :36-53 the constructors. *)
  Definition new_prover (k : proving_key) : option prover :=
    if Nat.eqb (pk_vars k) 0 then None else Some (mk_prover 0 (pk_vars k) (pk_max k) (pk_terms k) (pk_flat k)).
  (** :152-155: products[k] *= start + k * step. *)
  Fixpoint scale_products (start step : K) (products : list K) : list K :=
    match products with
    | [] => []
    | p :: r => p * start :: scale_products (start + step) step r
    end.
  (** :145-157 EvaluateTermPerVariable. *)
  Definition term_per_variable (tables : list (list K)) (j : nat) (products : list K) (t : term) : option (list K) :=
    ofold (fun products index =>
             match nth_error tables index with
             | None => None
             | Some table => let start := mle_at table (2 * j) in Some (scale_products start (mle_at table (2 * j + 1) - start) products)
             end) (t_indexes t) products.
  (** :97-111, the callback for one chunk. *)
  Definition round_chunk (s : prover) (c : nat * nat) : option (list K) :=
    ofold (fun ret i =>
             ofold (fun ret t => option_map (zip_with fadd ret) (term_per_variable (p_tables s) i (repeat (t_coeff t) (p_max s + 1)) t))
               (p_terms s) ret)
      (seq (fst c) (snd c)) (repeat 0 (p_max s + 1)).
  (** :68-119 Round(); [md] is MaxDegree, checked by the constructor of UnivariateEvaluations. *)
  Definition prover_round (threads : Z) (md : nat) (s : prover) : option (prover * list K) :=
    if Nat.leb (S (p_round s)) (p_vars s) then
      let s := mk_prover (S (p_round s)) (p_vars s) (p_max s) (p_terms s) (p_tables s) in
      match all_some (map (round_chunk s) (size_chunks threads (16 * threads) (Nat.pow 2 (p_vars s - p_round s)))) with
      | None => None
      | Some [] => None
      | Some (first :: rest) =>
          let evals := fold_left (zip_with fadd) rest first in
          if Nat.leb (length evals - 1) md then Some (s, evals) else None
      end
    else None.
  (** :133-142 Round(v_msg). *)
  Definition prover_next (threads : Z) (md : nat) (s : prover) (r : K) : option (prover * list K) :=
    if Nat.ltb 0 (p_round s) then
      match all_some (map (run_fix [r]) (p_tables s)) with
      | None => None
      | Some tables => prover_round threads md (mk_prover (p_round s) (p_vars s) (p_max s) (p_terms s) tables)
      end
    else None.

  (** ** sumcheck_verifier.h *)
  (** [to_big] is ToBigInt(). *)
  Variable to_big : K -> Z.
  (** :195-216: product, denom_up and evals of one chunk. *)
  Fixpoint interpolate_chunk (x check : K) (i len : nat) (s : K * K * list K) : K * K * list K :=
    match len with
    | O => s
    | S len =>
        let '(product, denom_up, evals) := s in
        let difference := x - check in
        interpolate_chunk x (check + 1) (S i) len
          (product * difference, (if Nat.ltb 1 i then denom_up * check else denom_up), evals ++ [difference])
    end.
  (** :258-264: from the last entry to the first; the entries arrive reversed and leave in order. *)
  Fixpoint scale_denoms (denom_up offset_up : K) (rev_evals acc : list K) : list K :=
    match rev_evals with
    | [] => acc
    | e :: r => scale_denoms (denom_up * - offset_up) (offset_up + 1) r (e * denom_up :: acc)
    end.
  (** :268-274. *)
  Fixpoint sum_up (product denom_down offset_down : K) (l : list (K * K)) (res : K) : K :=
    match l with
    | [] => res
    | (p, e) :: r => sum_up product (denom_down * offset_down) (offset_down - 1) r (res + p * product * denom_down * e)
    end.
  (** :126-276 InterpolateUniPoly; the integers made field elements are at most the size of the vector. *)
  Definition interpolate_uni_poly (threads : Z) (poly : list K) (x : K) : option K :=
    let n := length poly in
    if Nat.eqb n 0 then None
    else if (to_big x <? Z.of_nat n)%Z then nth_error poly (Z.to_nat (to_big x))
    else
      match map (fun c => interpolate_chunk x (fnat (fst c)) (fst c) (snd c) (1, 1, [])) (size_chunks threads (16 * threads) n) with
      | [] => None
      | first :: rest =>
          let '(product, denom_up, evals) :=
            fold_left (fun a r => let '(p, d, e) := a in let '(p', d', e') := r in (p * p', d * d', e ++ e')) rest first in
          let evals := scale_denoms denom_up 1 (rev evals) [] in
          match batch_inverse 0 1 fmul (fun y : K => if feqb y 0 then None else Some (finv y)) (fun y => feqb y 0) (fun y => feqb y 1)
                  threads true evals evals 1 with
          | None => None
          | Some evals => Some (sum_up product 1 (fnat (n - 1)) (rev (combine poly evals)) 0)
          end
      end.
  (** :110-117. *)
  Record verifier := mk_verifier { v_vars : nat; v_max : nat; v_random : list K; v_received : list (list K) }.
  (** :36-47 the constructors. *)
  Definition new_verifier (max vars : nat) : verifier := mk_verifier vars max [] [].
  (** :61-71 Round; [r] is what F::Random() returns. *)
  Definition verifier_round (v : verifier) (r : K) (msg : list K) : option verifier :=
    if Nat.ltb (length (v_received v)) (v_vars v) then
      Some (mk_verifier (v_vars v) (v_max v) (v_random v ++ [r]) (v_received v ++ [msg]))
    else None.
  (** :90-105, the loop from the [i]-th round on. *)
  Fixpoint check_rounds (threads : Z) (v : verifier) (i : nat) (received : list (list K)) (expected : K) : option (option K) :=
    match received with
    | [] => Some (Some expected)
    | evals :: received =>
        if Nat.eqb (length evals) (v_max v + 1) then
          match nth_error evals 0, nth_error evals 1 with
          | Some p0, Some p1 =>
              if feqb (p0 + p1) expected then
                match nth_error (v_random v) i with
                | None => None
                | Some r =>
                    match interpolate_uni_poly threads evals r with
                    | None => None
                    | Some e => check_rounds threads v (S i) received e
                    end
                end
              else Some None
          | _, _ => None
          end
        else None
    end.
  (** :85-108 CheckAndGenerateSubclaim: the verifier afterwards and the subclaim, if the result is true. Moving
      randomness_ leaves it empty. *)
  Definition check_subclaim (threads : Z) (v : verifier) (sum : K) : option (verifier * option (list K * K)) :=
    if Nat.eqb (length (v_received v)) (v_vars v) then
      match check_rounds threads v 0 (v_received v) sum with
      | None => None
      | Some None => Some (v, None)
      | Some (Some e) => Some (mk_verifier (v_vars v) (v_max v) [] (v_received v), Some (v_random v, e))
      end
    else None.

  (** ** multilinear_sumcheck.h *)
  (** :36-39: [rs] are the values the verifier draws in these rounds. *)
  Fixpoint run_rounds (threads : Z) (md : nat) (p : prover) (v : verifier) (last : K) (rs : list K) : option verifier :=
    match rs with
    | [] => Some v
    | r :: rs =>
        match prover_next threads md p last with
        | None => None
        | Some (p, msg) => match verifier_round v r msg with None => None | Some v => run_rounds threads md p v r rs end
        end
    end.
  (** :22-48 RunInteractiveProtocol; the verifier draws [rs], one value for each of num_variables rounds. [mmd] is the
      MaxDegree of the multilinear evaluations. *)
  Definition run_protocol (heap : nat -> list K) (threads : Z) (md mmd : nat) (lc : lincomb) (rs : list K) : option bool :=
    match rs with
    | [] => None
    | r :: rs =>
        match new_prover (pk_build heap lc) with
        | None => None
        | Some p =>
            match prover_round threads md p with
            | None => None
            | Some (p, msg) =>
                match verifier_round (new_verifier (lc_max lc) (lc_vars lc)) r msg with
                | None => None
                | Some v =>
                    match run_rounds threads md p v r rs, lc_combine heap threads lc with
                    | Some v, Some sum =>
                        match check_subclaim threads v sum with
                        | None => None
                        | Some (_, None) => Some false
                        | Some (_, Some (point, e)) => option_map (fun x => feqb x e) (lc_evaluate heap threads mmd lc point)
                        end
                    | _, _ => None
                    end
                end
            end
        end
    end.
End Sumcheck.
Arguments term : clear implicits. Arguments lincomb : clear implicits. Arguments verifier : clear implicits. Arguments prover : clear implicits.
Arguments proving_key : clear implicits.
