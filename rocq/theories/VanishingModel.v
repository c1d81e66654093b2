(** Model of the vanishing argument: zk/plonk/vanishing/{vanishing_utils,vanishing_prover_impl,circuit_polynomial_builder,custom_gate_evaluator,vanishing_verifier}.h, of the evaluation of the
    permutation and halo2 lookup constraints on the extended domain (zk/plonk/permutation/permutation_evaluator.h, zk/lookup/halo2/evaluator.h), of the Lagrange polynomials of the proving key
    (zk/plonk/keys/proving_key.h), of the verifier's side (zk/plonk/halo2/verifier.h) and of the degree of a constraint system (zk/plonk/constraint_system/constraint_system.h). Only definitions.
    [None] is a CHECK failure, an access out of bounds or a failed unwrap. Circuits with shuffle or log-derivative lookup arguments are left out (their constraints at a row are in LogDerivModel);
    commitments, transcripts and blinds too. *)
From Coq Require Import ZArith List Arith Bool.
From Verif Require Import Field BigIntModel BitsModel ParallelizeModel SemigroupModel PolyModel FFTModel DomainModel ExprModel ExprSpec GraphModel GrandProductModel LogDerivModel.
Import ListNotations.

Section Vanishing.
  Context {K : fld}.
  Open Scope fld_scope.
  Notation pow x n := (do_pow (1 : K) fmul (fun y => y * y) [n%Z] x).

  (** ** vanishing_utils.h *)
  (** vanishing_utils.h:26-37 GetZeta: [trace] holds the limbs of kTrace, [adicity] is kTwoAdicity and [gen] kSubgroupGenerator. *)
  Definition get_zeta (trace : list Z) (adicity : Z) (gen : K) : option K :=
    let three := bi_of_small (length trace) 3 in
    if bi_is_zero (bi_mod trace three) then
      match bi_div (bi_mul_by_2exp trace adicity) three with
      | None => None
      | Some exp => Some (do_pow (1 : K) fmul (fun y => y * y) exp gen)
      end
    else None.
  (** vanishing_utils.h:47-64 GetHalo2Zeta without its cache. *)
  Definition get_halo2_zeta (scroll : bool) (trace : list Z) (adicity : Z) (gen : K) : option K :=
    match get_zeta trace adicity gen with
    | None => None
    | Some z => Some (if scroll then z else z * z)
    end.
  (** semigroups.h:285-291 ExpPowOfTwo. *)
  Definition exp_pow_of_two (x : K) (log : nat) : K := Nat.iter log (fun y => y * y) x.
  (** vanishing_utils.h:96-103, the loop over a chunk of t_evaluations (the last iteration is peeled off in the code). *)
  Fixpoint successive (g x : K) (len : nat) : list K :=
    match len with O => [] | S m => x :: successive g (x * g) m end.
  (** vanishing_utils.h:91-105: one chunk of t_evaluations, inverted. *)
  Definition t_chunk (zeta_n gen_n : K) (call : Z * Z * Z) : option (list K) :=
    match call with (_, start, len) => invert (map (fun z => z - 1) (successive gen_n (zeta_n * pow gen_n start) (Z.to_nat len))) end.
  (** vanishing_utils.h:66-115 DivideByVanishingPolyInPlace. *)
  Definition divide_by_vanishing (threads : Z) (ext d : domain K) (zeta : K) (evals : list K) : option (list K) :=
    if negb (length evals =? d_size ext)%nat || (d_log ext <? d_log d)%nat then None
    else
      let m := Nat.pow 2 (d_log ext - d_log d) in
      let gen_n := exp_pow_of_two (d_gen ext) (d_log d) in
      let zeta_n := exp_pow_of_two zeta (d_log d) in
      match all_chunks (map (t_chunk zeta_n gen_n) (chunk_calls (Z.of_nat m) (size_per_thread threads (Z.of_nat m) None))) with
      | None => None
      | Some t => all_some (map (fun i => match nth_error evals i, nth_error t (Nat.modulo i (length t)) with Some e, Some v => Some (e * v) | _, _ => None end) (seq 0 (length evals)))
      end.
  (** vanishing_utils.h:123-138 DistributePowersZeta. *)
  Definition distribute_powers_zeta (zeta : K) (into_coset : bool) (l : list K) : list K :=
    let zeta_inv := zeta * zeta in
    map (fun i => match Nat.modulo i 3 with
                  | O => nth i l 0
                  | S O => nth i l 0 * (if into_coset then zeta else zeta_inv)
                  | _ => nth i l 0 * (if into_coset then zeta_inv else zeta)
                  end) (seq 0 (length l)).
  (** vanishing_utils.h:142-165 CoeffToExtended. *)
  Definition coeff_to_extended (threads : Z) (sched : scheduler) (ext : domain K) (it : item K) (zeta : K) (poly : list K) : option (list K) :=
    fft threads sched ext it (distribute_powers_zeta zeta true poly).
  (** vanishing_utils.h:171-186 ExtendedToCoeff. *)
  Definition extended_to_coeff (threads : Z) (sched : scheduler) (ext : domain K) (it : item K) (zeta : K) (evals : list K) : option (list K) :=
    if negb (length evals =? d_size ext)%nat then None
    else match ifft threads sched ext it evals with
         | None => None
         | Some p => Some (distribute_powers_zeta zeta false p)
         end.
  (** vanishing_utils.h:188-203 BuildExtendedColumnWithColumns: position j * cols + i holds columns[i][j]. *)
  Definition build_extended_column (columns : list (list K)) : option (list K) :=
    match columns with
    | [] => None
    | c0 :: _ =>
        let cols := length columns in
        all_some (map (fun p => match nth_error columns (Nat.modulo p cols) with Some c => nth_error c (Nat.div p cols) | None => None end) (seq 0 (cols * length c0)))
    end.

  (** ** What is proved: the constraint system, without selectors and shuffles *)
  (** AnyColumnKey, zk/base/row_types.h and plonk/constraint_system/column_key.h. *)
  Inductive any_column := AnyFixed (i : nat) | AnyAdvice (i : nat) | AnyInstance (i : nat).
  Record constraint_system := {
    sys_gates : list (expr K);                              (* the polynomials of all gates *)
    sys_columns : list any_column;                          (* the columns of the permutation *)
    sys_lookups : list (list (expr K) * list (expr K));     (* inputs and table expressions *)
    sys_minimum : nat }.                                    (* minimum_degree_.value_or(1) *)
  (** GetMaxExprDegree, lookup/argument.h. *)
  Definition max_degree (es : list (expr K)) : nat := fold_left (fun d e => Nat.max d (degree e)) es 1%nat.
  (** lookup::Argument::RequiredDegree, lookup/argument.h:82-210, with one vector of inputs. *)
  Definition lookup_required (l : list (expr K) * list (expr K)) : nat := Nat.max (3 + 1) (2 + max_degree (fst l) + max_degree (snd l)).
  (** constraint_system.h:657-678 ComputeDegree; PermutationArgument::RequiredDegree is 3; max_element of no elements gives 1 for lookups and 0 for gates, constraint_system.h:833-865. *)
  Definition compute_degree (s : constraint_system) : nat :=
    let degree0 := 3%nat in
    let degree1 := Nat.max degree0 (fold_left (fun d l => Nat.max d (lookup_required l)) (sys_lookups s) 1%nat) in
    let degree2 := Nat.max degree1 1 in
    let degree3 := Nat.max degree2 (fold_left (fun d e => Nat.max d (degree e)) (sys_gates s) 0%nat) in
    Nat.max degree3 (sys_minimum s).
  (** constraint_system.h:693-698 ComputeExtendedK; the product is computed in size_t. *)
  Definition compute_extended_k (s : constraint_system) (k : nat) : nat :=
    Nat.max (Z.to_nat (safe_log2_ceiling 64 (trunc 64 (2 ^ Z.of_nat k * Z.of_nat (compute_degree s - 1))))) k.
  (** permutation_utils.h:11-14 ComputePermutationChunkLength. *)
  Definition permutation_chunk_len (s : constraint_system) : nat := compute_degree s - 2.

  (** The challenges. *)
  Record challenges := { ch_theta : K; ch_beta : K; ch_gamma : K; ch_y : K }.
  (** The Lagrange polynomials of the proving key, proving_key.h:112-170, and the polynomials of the permutation. *)
  Record proving_key := { key_first : list K; key_last : list K; key_active : list K; key_sigmas : list (list K) }.
  Definition make_key (threads : Z) (sched : scheduler) (d : domain K) (it : item K) (bf : nat) (sigmas : list (list K)) : option proving_key :=
    let n := d_size d in
    let usable := (n - (bf + 1))%nat in
    let zeros := repeat (0 : K) n in
    match ifft threads sched d it (set_nth 0 1 zeros), ifft threads sched d it (set_nth usable 1 zeros),
          ifft threads sched d it (map (fun i => if (i <? usable)%nat then 1 else 0) (seq 0 n)) with
    | Some f, Some l, Some a => Some {| key_first := f; key_last := l; key_active := a; key_sigmas := sigmas |}
    | _, _, _ => None
    end.
  (** What the prover made for one circuit: the polynomials of the columns (and the challenges of the phases), the grand products of the permutation, and for each lookup its grand product,
      permuted input and permuted table. *)
  Record witness := { wit_table : table K; wit_products : list (list K); wit_lookups : list (list K * list K * list K) }.

  (** ** The constraints on one coset of the domain: circuit_polynomial_builder.h 197-254 with the evaluators *)
  (** coset_domain_->FFT(poly), read through Evaluations::operator[], which gives zero beyond the vector (univariate_evaluations.h:142-147). *)
  Definition coset_column (threads : Z) (sched : scheduler) (coset : domain K) (it : item K) (poly : list K) : option (list K) :=
    match fft threads sched coset it poly with
    | None => None
    | Some l => Some (vec_resize 0 l (d_size coset))
    end.
  Definition coset_columns (threads : Z) (sched : scheduler) (coset : domain K) (it : item K) (polys : list (list K)) : option (list (list K)) :=
    all_some (map (coset_column threads sched coset it) polys).
  (** CustomGateEvaluator::UpdateCosets, custom_gate_evaluator.h:58-122, vendor Scroll. *)
  Definition coset_table (threads : Z) (sched : scheduler) (coset : domain K) (it : item K) (t : table K) : option (table K) :=
    match coset_columns threads sched coset it (t_fixed t), coset_columns threads sched coset it (t_advice t), coset_columns threads sched coset it (t_instance t) with
    | Some f, Some a, Some i => Some {| t_fixed := f; t_advice := a; t_instance := i; t_challenges := t_challenges t |}
    | _, _, _ => None
    end.
  (** The columns the evaluators of one circuit read on one coset. *)
  Record cosets := {
    co_table : table K; co_first : list K; co_last : list K; co_active : list K;
    co_sigmas : list (list K); co_products : list (list K); co_lookups : list (list K * list K * list K) }.
  Definition coset_triple (threads : Z) (sched : scheduler) (coset : domain K) (it : item K) (p : list K * list K * list K) : option (list K * list K * list K) :=
    match coset_column threads sched coset it (fst (fst p)), coset_column threads sched coset it (snd (fst p)), coset_column threads sched coset it (snd p) with
    | Some z, Some a, Some s => Some (z, a, s)
    | _, _, _ => None
    end.
  (** UpdateLPolyCosets, circuit_polynomial_builder.h:158-162, and the UpdateCosets of the three evaluators (permutation_evaluator.h:107-150, lookup/halo2/evaluator.h:139-175). *)
  Definition update_cosets (threads : Z) (sched : scheduler) (coset : domain K) (it : item K) (key : proving_key) (w : witness) : option cosets :=
    match coset_table threads sched coset it (wit_table w),
          coset_column threads sched coset it (key_first key), coset_column threads sched coset it (key_last key), coset_column threads sched coset it (key_active key),
          coset_columns threads sched coset it (key_sigmas key), coset_columns threads sched coset it (wit_products w),
          all_some (map (coset_triple threads sched coset it) (wit_lookups w)) with
    | Some t, Some f, Some l, Some a, Some s, Some z, Some lk =>
        Some {| co_table := t; co_first := f; co_last := l; co_active := a; co_sigmas := s; co_products := z; co_lookups := lk |}
    | _, _, _, _, _, _, _ => None
    end.

  (** The inputs of a graph evaluation, ExtractEvaluationInput, circuit_polynomial_builder.h:151-156. *)
  Definition graph_inputs (t : table K) (n : nat) (ch : challenges) (prev : K) : inputs K :=
    {| in_table_ := t; in_n := Z.of_nat n; in_theta := ch_theta ch; in_beta := ch_beta ch; in_gamma := ch_gamma ch; in_y := ch_y ch; in_previous := prev |}.
  (** CustomGateEvaluator::Evaluate, custom_gate_evaluator.h:44-56: the rows of a chunk from row [idx] on; the intermediates are reused. *)
  Fixpoint gate_rows (G : graph K) (t : table K) (n : nat) (ch : challenges) (idx : nat) (inters : list K) (chunk : list K) : option (list K) :=
    match chunk with
    | [] => Some []
    | v :: r =>
        match evaluate G (graph_inputs t n ch v) (Z.of_nat idx) 1 inters with
        | None => None
        | Some (v', inters') => option_map (cons v') (gate_rows G t n ch (S idx) inters' r)
        end
    end.
  (** A column of the permutation at a row. *)
  Definition any_cell (t : table K) (idx : nat) (c : any_column) : K :=
    match c with
    | AnyFixed i => cell2 (t_fixed t) i idx
    | AnyAdvice i => cell2 (t_advice t) i idx
    | AnyInstance i => cell2 (t_instance t) i idx
    end.
  (** permutation_evaluator.h:88-106: the constraint of each grand product, one after the other; [delta] is threaded through all of them. The column chunks are those of Chunked(columns, chunk_len). *)
  Fixpoint product_rows (ch : challenges) (delta_gen active : K) (len : nat) (vals sigmas : list K) (zs : list (K * K)) (j : nat) (delta acc : K) : option K :=
    match zs with
    | [] => Some acc
    | (z, z_next) :: r =>
        let vs := chunk_of vals len j in
        let ss := chunk_of sigmas len j in
        if ((length vals <=? j * len) || (length ss <? length vs))%nat then None
        else
          let lhs := fold_left (fun acc p => acc * (fst p + ch_beta ch * snd p + ch_gamma ch)) (combine vs ss) z_next in
          let '(rhs, delta') := fold_left (fun (st : K * K) v => let (acc, d) := st in (acc * (v + d + ch_gamma ch), d * delta_gen)) vs (z, delta) in
          product_rows ch delta_gen active len vals sigmas r (S j) delta' (acc * ch_y ch + (lhs - rhs) * active)
    end.
  (** permutation_evaluator.h:51-110: one row; [beta_term] is current_extended_omega * omega^idx, [delta_start] is beta * zeta. *)
  Definition permutation_row (sys : constraint_system) (co : cosets) (n bf : nat) (ch : challenges) (delta_gen delta_start beta_term : K) (idx : nat) (acc : K) : option K :=
    match rotation_index (- Z.of_nat (bf + 1)) (to_int32 (Z.of_nat idx)) 1 (Z.of_nat n), rotation_index 1 (to_int32 (Z.of_nat idx)) 1 (Z.of_nat n) with
    | Some r_last, Some r_next =>
        let zs := map (fun c => cell c idx) (co_products co) in
        let nexts := map (fun c => cell c (Z.to_nat r_next)) (co_products co) in
        let lasts := map (fun c => cell c (Z.to_nat r_last)) (co_products co) in
        let first := cell (co_first co) idx in
        let acc := acc * ch_y ch + (1 - hd 0 zs) * first in
        let zl := List.last zs 0 in
        let acc := acc * ch_y ch + cell (co_last co) idx * (zl * zl - zl) in
        let acc := fold_left (fun acc p => acc * ch_y ch + first * (fst p - snd p)) (combine (tl zs) lasts) acc in
        product_rows ch delta_gen (cell (co_active co) idx) (permutation_chunk_len sys)
          (map (any_cell (co_table co) idx) (sys_columns sys)) (map (fun c => cell c idx) (co_sigmas co)) (combine zs nexts) 0 (delta_start * beta_term) acc
    | _, _ => None
    end.
  Fixpoint permutation_rows (sys : constraint_system) (co : cosets) (n bf : nat) (ch : challenges) (delta_gen delta_start omega beta_term : K) (idx : nat) (chunk : list K) : option (list K) :=
    match chunk with
    | [] => Some []
    | v :: r =>
        match permutation_row sys co n bf ch delta_gen delta_start beta_term idx v with
        | None => None
        | Some v' => option_map (cons v') (permutation_rows sys co n bf ch delta_gen delta_start omega (beta_term * omega) (S idx) r)
        end
    end.
  (** lookup/halo2/evaluator.h:65-137: one row of one lookup, given the value of its graph. *)
  Definition lookup_row (co : cosets) (n : nat) (ch : challenges) (p : list K * list K * list K) (table_value : K) (idx : nat) (acc : K) : option K :=
    let '(product, input, table_) := p in
    match rotation_index 1 (to_int32 (Z.of_nat idx)) 1 (Z.of_nat n), rotation_index (-1) (to_int32 (Z.of_nat idx)) 1 (Z.of_nat n) with
    | Some r_next, Some r_prev =>
        let z := cell product idx in
        let a_minus_s := cell input idx - cell table_ idx in
        let first := cell (co_first co) idx in
        let active := cell (co_active co) idx in
        let acc := acc * ch_y ch + first * (1 - z) in
        let acc := acc * ch_y ch + cell (co_last co) idx * (z * z - z) in
        let acc := acc * ch_y ch + active * (cell product (Z.to_nat r_next) * (cell input idx + ch_beta ch) * (cell table_ idx + ch_gamma ch) - z * table_value) in
        let acc := acc * ch_y ch + first * a_minus_s in
        Some (acc * ch_y ch + active * a_minus_s * (cell input idx - cell input (Z.to_nat r_prev)))
    | _, _ => None
    end.
  Fixpoint lookup_rows (G : graph K) (co : cosets) (n : nat) (ch : challenges) (p : list K * list K * list K) (idx : nat) (inters : list K) (chunk : list K) : option (list K) :=
    match chunk with
    | [] => Some []
    | v :: r =>
        match evaluate G (graph_inputs (co_table co) n ch 0) (Z.of_nat idx) 1 inters with
        | None => None
        | Some (table_value, inters') =>
            match lookup_row co n ch p table_value idx v with
            | None => None
            | Some v' => option_map (cons v') (lookup_rows G co n ch p (S idx) inters' r)
            end
        end
    end.
  (** All the lookups, one after the other; [None] if a lookup has no cosets. *)
  Fixpoint all_lookup_rows (Gs : list (graph K)) (co : cosets) (n : nat) (ch : challenges) (ps : list (list K * list K * list K)) (idx : nat) (chunk : list K) : option (list K) :=
    match Gs with
    | [] => Some chunk
    | G :: Gs' =>
        match ps with
        | [] => None
        | p :: ps' =>
            match lookup_rows G co n ch p idx (repeat 0 (num_intermediates G)) chunk with
            | None => None
            | Some chunk' => all_lookup_rows Gs' co n ch ps' idx chunk'
            end
        end
    end.
  (** The callback of Parallelize, circuit_polynomial_builder.h:234-246; the permutation evaluator returns at once if there are no grand products. *)
  Definition circuit_chunk (sys : constraint_system) (Gg : graph K) (Gs : list (graph K)) (co : cosets) (n bf : nat) (ch : challenges) (delta_gen delta_start omega current : K)
      (part : list K) (call : Z * Z * Z) : option (list K) :=
    match call with (_, start, len) =>
      let idx := Z.to_nat start in
      match gate_rows Gg (co_table co) n ch idx (repeat 0 (num_intermediates Gg)) (slice part idx (Z.to_nat len)) with
      | None => None
      | Some c1 =>
          match (match co_products co with [] => Some c1 | _ => permutation_rows sys co n bf ch delta_gen delta_start omega (current * pow omega start) idx c1 end) with
          | None => None
          | Some c2 => all_lookup_rows Gs co n ch (co_lookups co) idx c2
          end
      end
    end.
  (** circuit_polynomial_builder.h:222-247: all circuits, into one part. *)
  Fixpoint evaluate_circuits (threads : Z) (sched : scheduler) (coset : domain K) (it : item K) (sys : constraint_system) (Gg : graph K) (Gs : list (graph K)) (key : proving_key) (bf : nat)
      (ch : challenges) (delta_gen delta_start omega current : K) (ws : list witness) (part : list K) : option (list K) :=
    match ws with
    | [] => Some part
    | w :: r =>
        match update_cosets threads sched coset it key w with
        | None => None
        | Some co =>
            let n := d_size coset in
            match all_chunks (map (circuit_chunk sys Gg Gs co n bf ch delta_gen delta_start omega current part)
                    (chunk_calls (Z.of_nat (length part)) (size_per_thread threads (Z.of_nat (length part)) None))) with
            | None => None
            | Some part' => evaluate_circuits threads sched coset it sys Gg Gs key bf ch delta_gen delta_start omega current r part'
            end
        end
    end.
  (** circuit_polynomial_builder.h:209-251: the parts, with current_extended_omega. *)
  Fixpoint value_parts (threads : Z) (sched : scheduler) (d : domain K) (it : item K) (sys : constraint_system) (Gg : graph K) (Gs : list (graph K)) (key : proving_key) (bf : nat)
      (ch : challenges) (delta_gen zeta extended_omega : K) (ws : list witness) (todo : nat) (current : K) : option (list (list K)) :=
    match todo with
    | O => Some []
    | S todo' =>
        match get_coset d (zeta * current) with
        | None => None
        | Some coset =>
            match evaluate_circuits threads sched coset it sys Gg Gs key bf ch delta_gen (ch_beta ch * zeta) (d_gen d) current ws (repeat 0 (d_size d)) with
            | None => None
            | Some part => option_map (cons part) (value_parts threads sched d it sys Gg Gs key bf ch delta_gen zeta extended_omega ws todo' (current * extended_omega))
            end
        end
    end.
  (** The lookup evaluators, one graph per argument. *)
  Definition lookup_graphs (sys : constraint_system) : option (list (graph K)) := all_some (map (fun l => construct_lookup (fst l) (snd l)) (sys_lookups sys)).
  (** VanishingArgument::Create and BuildExtendedCircuitColumn, vanishing_argument.h:27-75; Create and BuildExtendedCircuitColumnScroll, circuit_polynomial_builder.h:103-254. *)
  Definition build_extended_circuit_column (threads : Z) (sched : scheduler) (d ext : domain K) (it : item K) (sys : constraint_system) (key : proving_key) (bf : nat)
      (ch : challenges) (delta_gen zeta : K) (ws : list witness) : option (list K) :=
    match construct_gates (sys_gates sys) empty_graph, lookup_graphs sys with
    | Some Gg, Some Gs =>
        match value_parts threads sched d it sys Gg Gs key bf ch delta_gen zeta (d_gen ext) ws (Nat.div (d_size ext) (Nat.pow 2 (d_log d))) 1 with
        | None => None
        | Some parts => build_extended_column parts
        end
    | _, _ => None
    end.

  (** ** The quotient: vanishing_prover_impl.h *)
  (** CreateFinalHPoly, 76-95, and the resize of CommitFinalHPoly, 110-116. [it], [it_ext]: the twiddle tables of the two domains. *)
  Definition create_h (threads : Z) (sched : scheduler) (d ext : domain K) (it it_ext : item K) (sys : constraint_system) (key : proving_key) (bf : nat)
      (ch : challenges) (delta_gen zeta : K) (ws : list witness) : option (list K) :=
    match build_extended_circuit_column threads sched d ext it sys key bf ch delta_gen zeta ws with
    | None => None
    | Some evals =>
        match divide_by_vanishing threads ext d zeta evals with
        | None => None
        | Some q => match extended_to_coeff threads sched ext it_ext zeta q with
                    | None => None
                    | Some h => Some (vec_resize 0 h (d_size d * (compute_degree sys - 1)))
                    end
        end
    end.
  (** The pieces that are committed to, 118-137, and combined by powers of x^n, BatchEvaluate 179-194: from the last piece to the first. *)
  Definition h_pieces (n : nat) (h : list K) : list (list K) := map (fun i => slice h (i * n) n) (seq 0 (Nat.div (length h + n - 1) n)).
  Definition combine_pieces (n : nat) (pieces : list (list K)) (x_n : K) : list K :=
    remove_high (fold_right (fun piece coeffs => map (fun j => cell coeffs j * x_n + cell piece j) (seq 0 n)) (repeat 0 n) pieces).

  (** ** The verifier: halo2/verifier.h *)
  (** Rotation::RotateOmega, rotation.h:53-56. *)
  Definition rotate_omega (d : domain K) (rot : Z) (x : K) : K := x * get_element d rot.
  (** ComputeAuxValues, verifier.h:127-150: l_first, l_blind, l_last. *)
  Definition aux_values (threads : Z) (d : domain K) (bf : nat) (x : K) : option (K * K * K) :=
    match partial_lagrange threads d x (- Z.of_nat (bf + 1)) (bf + 2) with
    | None => None
    | Some l => match nth_error l (1 + bf), nth_error l 0 with
                | Some first, Some last => Some (first, fold_left (fun acc e => acc + e) (slice l 1 bf) 0, last)
                | _, _ => None
                end
    end.
  (** What a proof contains for one circuit at the verifier's point: the columns at the queried rotations, the grand products of the permutation there, at the next and at the last row, the
      permutation polynomials, and for each lookup the grand product here and at the next row, the permuted input here and at the previous row and the permuted table. The indirection through query
      indices (constraint_system.h QueryIndex) is left out. *)
  Record evaluations := {
    ev_leaves : leaves K; ev_products : list K; ev_nexts : list K; ev_lasts : list K; ev_sigmas : list K;
    ev_lookups : list (K * K * K * K * K) }.
  (** GetEval, permutation_verifier.h:113-140: the column at the current row. *)
  Definition any_eval (v : leaves K) (c : any_column) : K :=
    match c with AnyFixed i => v_fixed v i 0 | AnyAdvice i => v_advice v i 0 | AnyInstance i => v_instance v i 0 end.
  (** VanishingVerifier::Evaluate, vanishing_verifier.h:25-33; PermutationVerifier::Evaluate, permutation_verifier.h:28-78; lookup::halo2::Verifier::Evaluate, lookup/halo2/verifier.h:35-66. *)
  Definition circuit_evals (sys : constraint_system) (ch : challenges) (delta_gen first last blind x : K) (ev : evaluations) : list K :=
    map (value (ev_leaves ev)) (sys_gates sys) ++
    permutation_verifier_evals first last blind delta_gen x (ch_beta ch) (ch_gamma ch) (permutation_chunk_len sys) (ev_products ev) (ev_nexts ev) (ev_lasts ev)
      (map (any_eval (ev_leaves ev)) (sys_columns sys)) (ev_sigmas ev) ++
    flat_map (fun p => let '((inputs, table_), (z, z_next, a', a'_prev, s')) := p in
                lookup_verifier_evals first last blind (ch_beta ch) (ch_gamma ch) z z_next a' a'_prev s'
                  (compress_verifier (ch_theta ch) (map (value (ev_leaves ev)) inputs)) (compress_verifier (ch_theta ch) (map (value (ev_leaves ev)) table_)))
      (combine (sys_lookups sys) (ev_lookups ev)).
  (** EvaluateH, verifier.h:307-356, after ComputeAuxValues; the division aborts when x^n is 1. [k] is log2 of the domain size. *)
  Definition evaluate_h (threads : Z) (d : domain K) (sys : constraint_system) (bf : nat) (ch : challenges) (delta_gen x : K) (evs : list evaluations) : option K :=
    match aux_values threads d bf x with
    | None => None
    | Some (first, blind, last) =>
        let h := accumulate (ch_y ch) 0 (flat_map (circuit_evals sys ch delta_gen first last blind x) evs) in
        let x_n := exp_pow_of_two x (d_log d) in
        if feqb (x_n - 1) 0 then None else Some (h * finv (x_n - 1))
    end.

  (** ** ComputeInstanceEvalsVec, verifier.h:240-305, for one circuit *)
  (** The range of the rotations of the instance queries (column, rotation); it always contains 0. *)
  Definition rotation_range (queries : list (nat * Z)) : Z * Z :=
    fold_left (fun (r : Z * Z) q => let '(mn, mx) := r in if (snd q <? mn)%Z then (snd q, mx) else if (mx <? snd q)%Z then (mn, snd q) else (mn, mx)) queries (0, 0)%Z.
  Definition sum_of_products (l r : list K) : K := fold_left (fun acc p => acc + fst p * snd p) (combine l r) 0.
  (** subspan(offset, instances.size()) must lie within the coefficients; SumOfProductsSerial. *)
  Definition instance_eval (columns : list (list K)) (coeffs : list K) (max_rotation : Z) (q : nat * Z) : option K :=
    match nth_error columns (fst q) with
    | None => None
    | Some inst =>
        let offset := Z.to_nat (max_rotation - snd q) in
        if (length coeffs <? offset + length inst)%nat then None else Some (sum_of_products inst (slice coeffs offset (length inst)))
    end.
  Definition instance_evals (threads : Z) (d : domain K) (columns : list (list K)) (queries : list (nat * Z)) (x : K) : option (list K) :=
    let '(mn, mx) := rotation_range queries in
    let rows := fold_left (fun m c => Nat.max m (length c)) columns 0%nat in
    match partial_lagrange threads d x (- mx) (Z.to_nat (Z.of_nat rows + Z.abs mn + mx)) with
    | None => None
    | Some coeffs => all_some (map (instance_eval columns coeffs mx) queries)
    end.

  (** ** Vendor PSE: BuildExtendedCircuitColumnPSE, circuit_polynomial_builder.h:164-195, for circuits without permutation and lookups. The columns are CoeffToExtended; rows are still taken modulo n. *)
  Definition extended_column (threads : Z) (sched : scheduler) (ext : domain K) (it : item K) (zeta : K) (poly : list K) : option (list K) :=
    match coeff_to_extended threads sched ext it zeta poly with
    | None => None
    | Some l => Some (vec_resize 0 l (d_size ext))
    end.
  Definition extended_table (threads : Z) (sched : scheduler) (ext : domain K) (it : item K) (zeta : K) (t : table K) : option (table K) :=
    let cols l := all_some (map (extended_column threads sched ext it zeta) l) in
    match cols (t_fixed t), cols (t_advice t), cols (t_instance t) with
    | Some f, Some a, Some i => Some {| t_fixed := f; t_advice := a; t_instance := i; t_challenges := t_challenges t |}
    | _, _, _ => None
    end.
  Fixpoint pse_circuits (threads : Z) (sched : scheduler) (n : nat) (ext : domain K) (it : item K) (Gg : graph K) (ch : challenges) (zeta : K) (ts : list (table K)) (acc : list K) : option (list K) :=
    match ts with
    | [] => Some acc
    | t :: r =>
        match extended_table threads sched ext it zeta t with
        | None => None
        | Some et =>
            match all_chunks (map (fun call => match call with (_, start, len) =>
                      gate_rows Gg et n ch (Z.to_nat start) (repeat 0 (num_intermediates Gg)) (slice acc (Z.to_nat start) (Z.to_nat len)) end)
                    (chunk_calls (Z.of_nat (length acc)) (size_per_thread threads (Z.of_nat (length acc)) None))) with
            | None => None
            | Some acc' => pse_circuits threads sched n ext it Gg ch zeta r acc'
            end
        end
    end.
  Definition build_extended_circuit_column_pse (threads : Z) (sched : scheduler) (d ext : domain K) (it : item K) (gates : list (expr K)) (ch : challenges) (zeta : K) (ts : list (table K)) : option (list K) :=
    match construct_gates gates empty_graph with
    | None => None
    | Some Gg => pse_circuits threads sched (d_size d) ext it Gg ch zeta ts (repeat 0 (d_size ext))
    end.
End Vanishing.
Arguments constraint_system : clear implicits. Arguments challenges : clear implicits. Arguments proving_key : clear implicits. Arguments witness : clear implicits. Arguments cosets : clear implicits.
Arguments evaluations : clear implicits.
