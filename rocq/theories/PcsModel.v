(** Model of tachyon/crypto/commitments/fri/two_adic_fri.h (TF): the polynomial commitment scheme on top of FRI. Only definitions.
    ExtF and its base field F are one field [K]: the code lifts the values of F before use. The matrix commitment scheme for the inputs, the one FRI uses
    and the challenger are parameters. Matrices are lists of rows, mat.cols() is the length of the first row.
    [None] is a failed CHECK, unwrap() of a failed inversion, an undefined shift or an access out of bounds; [Commit] returning false is [None] too. *)
From Coq Require Import ZArith List Arith Bool.
From Verif Require Import Field BitsModel ParallelizeModel SemigroupModel FFTModel CosetModel FriModel.
Import ListNotations.
Open Scope nat_scope.

(** a[i] with b[i] for all i < a.size(); a shorter [b] is read out of bounds, more entries of [b] are not read. *)
Fixpoint zip_reads {A B} (a : list A) (b : list B) : option (list (A * B)) :=
  match a, b with
  | [], _ => Some []
  | x :: a', y :: b' => match zip_reads a' b' with Some r => Some ((x, y) :: r) | None => None end
  | _ :: _, [] => None
  end.
Fixpoint all_reads {A} (l : list (option A)) : option (list A) :=
  match l with [] => Some [] | Some x :: r => match all_reads r with Some s => Some (x :: s) | None => None end | None :: _ => None end.
(** The largest number of rows: GetMaxRowSize of a matrix commitment's data. *)
Definition max_rows {A} (mats : list (list A)) : nat := fold_left (fun m mat => Nat.max m (length mat)) mats 0.

Section Pcs.
  Variable K : fld.
  Open Scope fld_scope.
  Notation matrix := (list (list K)).
  Notation pow x n := (do_pow (1 : K) fmul (fun y => y * y) [n%Z] x).
  Notation batch_inv l := (batch_inverse_serial 0 1 fmul (fun x : K => if feqb x 0 then None else Some (finv x)) (fun x => feqb x 0) (fun x => feqb x 1) true l l 1).
  (** kTwoAdicity, kTwoAdicRootOfUnity and kSubgroupGenerator of F, the number of threads and the interleaving of parallel loops. *)
  Variables (adicity : nat) (root shift : K) (threads : Z) (sched : scheduler).
  (** FRIConfig::log_blowup. *)
  Variable log_blowup : nat.

  (** One iteration of TF:80-92. The twiddle tables of the domain are built when they are not cached. *)
  Definition extend (d : domain K) (mat : matrix) : option matrix :=
    if d_size d =? length mat then
      match build_item true threads sched d true with
      | None => None
      | Some it => coset_lde_batch row_bf row_scale (repeat (0 : K) (length (hd [] mat))) true threads sched adicity root d it mat log_blowup
                     (shift * d_off_inv d) (length mat * 2 ^ log_blowup) false
      end
    else None.

  (** DotExtPowers of one row (math/matrix/matrix_utils.h:158-188) and reduced_ys of TF:168-174: the sum of alpha^c * row[c]. The code adds the terms of a row lane by lane. *)
  Fixpoint dot_powers (alpha pw : K) (row : list K) : K :=
    match row with [] => 0 | x :: r => pw * x + dot_powers alpha (pw * alpha) r end.

  (** max_log_num_rows_for_point, TF:351-357: the entry of a point is created or raised. *)
  Fixpoint raise (z : K) (log : nat) (m : list (K * nat)) : list (K * nat) :=
    match m with
    | [] => [(z, log)]
    | (y, l) :: r => if feqb z y then (y, Nat.max l log) :: r else (y, l) :: raise z log r
    end.
  (** TF:338-360 over all matrices with their points: the map and max_log_num_rows. The number of rows is cut to 32 bits first. *)
  Fixpoint point_logs (mats : list (matrix * list K)) (m : list (K * nat)) (top : nat) : option (list (K * nat) * nat) :=
    match mats with
    | [] => Some (m, top)
    | (mat, zs) :: r =>
        match checked_log2 32 (Z.of_nat (length mat) mod 2 ^ 32) with
        | None => None
        | Some log => point_logs r (fold_left (fun m z => raise z (Z.to_nat log) m) zs m) (Nat.max top (Z.to_nat log))
        end
    end.
  (** One chunk of TF:375-384. BatchInverseInPlace, which may split the chunk again, is the serial one here: C17 says that they agree, zeros left alone. *)
  Definition denom_chunk (subgroup : list K) (z : K) (call : Z * Z * Z) : option (list K) :=
    match call with
    | (_, start, len) =>
        match all_reads (map (nth_error subgroup) (seq (Z.to_nat start) (Z.to_nat len))) with
        | Some xs => batch_inv (map (fun x => x - z) xs)
        | None => None
        end
    end.
  Definition denoms_of (subgroup : list K) (z : K) (log : nat) : option (list K) :=
    let n := (2 ^ Z.of_nat log)%Z in
    concat_opt (map (denom_chunk subgroup z) (chunk_calls n (num_elements_per_thread threads n None))).
  (** ComputeInverseDenominators, TF:330-387. *)
  Definition inverse_denominators (mats : list (matrix * list K)) : option (list (K * list K)) :=
    match point_logs mats [] 0%nat with
    | None => None
    | Some (m, top) =>
        match get_root_of_unity adicity root (2 ^ Z.of_nat top) with
        | None => None
        | Some w =>
            match get_bitrev_powers_writes (1 : K) fmul (fun y => y * y) (fun x => feqb x 1) threads (2 ^ top)%nat w shift with
            | None => None
            | Some ws =>
                match apply_writes ws (repeat (0 : K) (2 ^ top)%nat) with
                | None => None
                | Some subgroup => all_reads (map (fun e => match denoms_of subgroup (fst e) (snd e) with Some l => Some (fst e, l) | None => None end) m)
                end
            end
        end
    end.
  (** inv_denoms[point]: operator[] of a missing point makes an empty vector. *)
  Fixpoint find_denoms (m : list (K * list K)) (z : K) : list K :=
    match m with [] => [] | (y, l) :: r => if feqb z y then l else find_denoms r z end.

  (** reduced_openings and num_reduced of TF:127-128. *)
  Definition arrays : Type := list (list K) * list nat.

  (** The points of one matrix, TF:160-187. [block] holds the first rows in natural order, [rows] is DotExtPowers(mat, alpha). With no column num_cols - 1 wraps. *)
  Fixpoint open_points (alpha : K) (denoms : list (K * list K)) (num_cols : nat) (block : matrix) (rows : list K) (zs : list K) (vec : list K) (num : nat)
    : option (list K * nat * list (list K)) :=
    match zs with
    | [] => Some (vec, num, [])
    | z :: r =>
        match interpolate_coset adicity root threads num_cols block shift z with
        | None => None
        | Some ys =>
            let inv := find_denoms denoms z in
            if (num_cols =? 0)%nat then None
            else if (length vec <=? length inv)%nat && (length vec <=? length rows)%nat then
              let reduced_ys := dot_powers alpha 1 ys in
              let off := pow alpha (Z.of_nat num) in
              let vec' := map (fun e => fst e + off * (fst (snd e) - reduced_ys) * snd (snd e)) (combine vec (combine rows inv)) in
              match open_points alpha denoms num_cols block rows r vec' (num + num_cols) with
              | Some (v, n, os) => Some (v, n, ys :: os)
              | None => None
              end
            else None
        end
    end.
  (** One matrix, TF:136-188. std::array<_, 32> is indexed by log_num_rows. *)
  Definition open_matrix (alpha : K) (denoms : list (K * list K)) (st : arrays) (mat : matrix) (zs : list K) : option (arrays * list (list K)) :=
    match checked_log2 64 (Z.of_nat (length mat)) with
    | None => None
    | Some log =>
        let log := Z.to_nat log in
        match nth_error (fst st) log, nth_error (snd st) log with
        | Some vec0, Some num =>
            let vec := match vec0 with [] => repeat 0 (length mat) | _ => vec0 end in
            if (length vec =? length mat)%nat then
              match all_reads (map (fun r => match reverse_bits_len (Z.of_nat r) (Z.of_nat (log - log_blowup)) with Some j => nth_error mat (Z.to_nat j) | None => None end)
                                   (seq 0 (Nat.div (length mat) (2 ^ log_blowup)))) with
              | None => None
              | Some block =>
                  match open_points alpha denoms (length (hd [] mat)) block (map (dot_powers alpha 1) mat) zs vec num with
                  | Some (v, n, os) => Some ((set_nth log v (fst st), set_nth log n (snd st)), os)
                  | None => None
                  end
              end
            else None
        | _, _ => None
        end
    end.
  Fixpoint open_matrices (alpha : K) (denoms : list (K * list K)) (st : arrays) (mats : list (matrix * list K)) : option (arrays * list (list (list K))) :=
    match mats with
    | [] => Some (st, [])
    | (mat, zs) :: r =>
        match open_matrix alpha denoms st mat zs with
        | None => None
        | Some (st1, os) => match open_matrices alpha denoms st1 r with Some (st2, rest) => Some (st2, os :: rest) | None => None end
        end
    end.
  (** The loop over the rounds, TF:130-190. *)
  Fixpoint open_rounds (alpha : K) (denoms : list (K * list K)) (st : arrays) (rounds : list (list (matrix * list K))) : option (arrays * list (list (list (list K)))) :=
    match rounds with
    | [] => Some (st, [])
    | mats :: r =>
        match open_matrices alpha denoms st mats with
        | None => None
        | Some (st1, os) => match open_rounds alpha denoms st1 r with Some (st2, rest) => Some (st2, os :: rest) | None => None end
        end
    end.
  (** fri_input, TF:191-197. *)
  Definition fri_inputs (st : arrays) : list (list K) := rev (filter (fun v => match v with [] => false | _ => true end) (fst st)).

  (** The verifier's side. ReducedOpening: (value, pow). The columns of one point, TF:308-312. *)
  Fixpoint add_columns (alpha denom : K) (ro : K * K) (cols : list (K * K)) : K * K :=
    match cols with
    | [] => ro
    | (p, y) :: r => add_columns alpha denom (fst ro + snd ro * ((p - y) * denom), snd ro * alpha) r
    end.
  (** The points of one matrix, TF:303-313. *)
  Fixpoint add_points (alpha x : K) (values_in : list K) (zs : list K) (values : list (list K)) (ro : K * K) : option (K * K) :=
    match zs, values with
    | [], _ => Some ro
    | z :: zs', ys :: values' =>
        if feqb (x - z) 0 then None
        else if (length ys =? length values_in)%nat then add_points alpha x values_in zs' values' (add_columns alpha (finv (x - z)) ro (combine values_in ys))
        else None
    | _ :: _, [] => None
    end.
  (** try_emplace(log, Default()) in a btree_map, listed from the largest key down, and an update of the entry. *)
  Fixpoint update_entry (log : nat) (f : K * K -> option (K * K)) (m : list (nat * (K * K))) : option (list (nat * (K * K))) :=
    match m with
    | [] => match f (0, 1) with Some e => Some [(log, e)] | None => None end
    | (l, e) :: r =>
        if (l =? log)%nat then match f e with Some e' => Some ((l, e') :: r) | None => None end
        else if (l <? log)%nat then match f (0, 1) with Some e' => Some ((log, e') :: m) | None => None end
        else match update_entry log f r with Some r' => Some ((l, e) :: r') | None => None end
    end.
  (** The index a matrix or a batch of 2^log rows is opened at: index >> (log_global_max_num_rows - log); a negative difference wraps and the shift is undefined. *)
  Definition reduced_index (log_global log index : nat) : option nat := if (log_global <? log)%nat then None else Some (Nat.div index (2 ^ (log_global - log))).
  (** One matrix, TF:284-314. *)
  Definition check_matrix (alpha : K) (log_global index : nat) (m : list (nat * (K * K))) (d : domain K) (zs : list K) (values : list (list K)) (values_in : list K) : option (list (nat * (K * K))) :=
    let log := (d_log d + log_blowup)%nat in
    match reduced_index log_global log index with
    | None => None
    | Some i =>
        match reverse_bits_len (Z.of_nat i) (Z.of_nat log), get_root_of_unity adicity root (2 ^ Z.of_nat log) with
        | Some r, Some w => update_entry log (add_points alpha (shift * pow w r) values_in zs values) m
        | _, _ => None
        end
    end.
  (** TF:283-314 with vals_size = opened_values.size(). *)
  Fixpoint check_matrices (alpha : K) (log_global index : nat) (m : list (nat * (K * K))) (values : list (list (list K))) (ds : list (domain K)) (zs : list (list K)) (values_in : list (list K))
    : option (list (nat * (K * K))) :=
    match values with
    | [] => Some m
    | vs :: values' =>
        match ds, zs, values_in with
        | d :: ds', z :: zs', vi :: values_in' =>
            match check_matrix alpha log_global index m d z vs vi with
            | Some m' => check_matrices alpha log_global index m' values' ds' zs' values_in'
            | None => None
            end
        | _, _, _ => None
        end
    end.

  (** The matrix commitment scheme for the inputs: CommitOwned, GetMatrices, CreateOpeningProof, VerifyOpeningProof(commitment, dimensions, index, rows, proof). *)
  Variables (ICom IData IPf : Type).
  Variable input_commit : list matrix -> option (ICom * IData).
  Variable input_matrices : IData -> list matrix.
  Variable input_open : nat -> IData -> option (list (list K) * IPf).
  Variable input_verify : ICom -> list (nat * nat) -> nat -> list (list K) -> IPf -> bool.

  (** Commit, TF:76-94. *)
  Definition pcs_commit (domains : list (domain K)) (mats : list matrix) : option (ICom * IData) :=
    match zip_reads domains mats with
    | None => None
    | Some l => match all_reads (map (fun p => extend (fst p) (snd p)) l) with Some ldes => input_commit ldes | None => None end
    end.

  (** One round of the verifier's callback, TF:257-315. *)
  Definition check_round (alpha : K) (log_global index : nat) (m : list (nat * (K * K))) (com : ICom) (ds : list (domain K)) (zs : list (list K)) (values : list (list (list K))) (inp : list (list K) * IPf)
    : option (list (nat * (K * K))) :=
    match zip_reads values ds with
    | None => None
    | Some l =>
        let dims := map (fun p => (0%nat, d_size (snd p) * 2 ^ log_blowup)%nat) l in
        match checked_log2 64 (Z.of_nat (fold_left (fun a p => Nat.max a (snd p)) dims 0%nat)) with
        | None => None
        | Some log =>
            match reduced_index log_global (Z.to_nat log) index with
            | None => None
            | Some i => if input_verify com dims i (fst inp) (snd inp) then check_matrices alpha log_global index m values ds zs (fst inp) else None
            end
        end
    end.
  Fixpoint check_rounds (alpha : K) (log_global index : nat) (m : list (nat * (K * K))) (coms : list ICom) (dss : list (list (domain K))) (zss : list (list (list K))) (vss : list (list (list (list K))))
      (inps : list (list (list K) * IPf)) : option (list (nat * (K * K))) :=
    match coms with
    | [] => Some m
    | com :: coms' =>
        match dss, zss, vss, inps with
        | ds :: dss', zs :: zss', vs :: vss', inp :: inps' =>
            match check_round alpha log_global index m com ds zs vs inp with
            | Some m' => check_rounds alpha log_global index m' coms' dss' zss' vss' inps'
            | None => None
            end
        | _, _, _, _ => None
        end
    end.
  (** InputProof: a BatchOpening per round. [None] is a failed CHECK in the prover's callback: no such proof is output. *)
  Definition in_proof : Type := option (list (list (list K) * IPf)).
  (** The verifier's callback, TF:239-323. *)
  Definition check_openings (alpha : K) (log_global : nat) (coms : list ICom) (dss : list (list (domain K))) (zss : list (list (list K))) (vss : list (list (list (list K)))) (index : nat) (inp : in_proof)
    : option (list (nat * K)) :=
    match inp with
    | None => None
    | Some inps => match check_rounds alpha log_global index [] coms dss zss vss inps with Some m => Some (map (fun e => (fst e, fst (snd e))) m) | None => None end
    end.
  (** The prover's callback, TF:202-220. *)
  Definition open_input (log_global : nat) (datas : list IData) (index : nat) : in_proof :=
    all_reads (map (fun d => match checked_log2 64 (Z.of_nat (max_rows (input_matrices d))) with
                             | None => None
                             | Some log => match reduced_index log_global (Z.to_nat log) index with Some i => input_open i d | None => None end
                             end) datas).

  (** FRI's matrix commitment scheme and the challenger, see FriModel.v. *)
  Variables (Com Data Pf : Type).
  Variable mmcs_commit : list (list K) -> option (Com * Data).
  Variable mmcs_matrix : Data -> list (list K).
  Variable mmcs_open : nat -> Data -> option (list (list K) * Pf).
  Variable mmcs_verify : Com -> nat * nat -> nat -> list (list K) -> Pf -> bool.
  Variables (Ch Wit : Type).
  Variable observe_commitment : Ch -> Com -> Ch.
  Variable observe_value : Ch -> K -> Ch.
  Variable sample : Ch -> K * Ch.
  Variable grind : Ch -> Wit * Ch.
  Variable check_witness : Ch -> Wit -> bool * Ch.
  Variable sample_bits : nat -> Ch -> nat * Ch.
  Variable num_queries : nat.
  Definition pcs_proof : Type := fri_proof K Com Pf Wit in_proof.

  (** CreateOpeningProof, TF:96-223: the opened values, the proof and the challenger. *)
  Definition create_opening (datas : list IData) (points : list (list (list K))) (ch : Ch) : option (list (list (list (list K))) * pcs_proof * Ch) :=
    let '(alpha, ch1) := sample ch in
    match checked_log2 64 (Z.of_nat (fold_left (fun a d => Nat.max a (max_rows (input_matrices d))) datas 0%nat)) with
    | None => None
    | Some log_global =>
        match zip_reads (map input_matrices datas) points with
        | None => None
        | Some l =>
            match all_reads (map (fun p => zip_reads (fst p) (snd p)) l) with
            | None => None
            | Some rounds =>
                match inverse_denominators (concat rounds) with
                | None => None
                | Some denoms =>
                    match open_rounds alpha denoms (repeat [] 32, repeat 0%nat 32) rounds with
                    | None => None
                    | Some (st, opened) =>
                        match prove K adicity root threads Com Data Pf mmcs_commit mmcs_matrix mmcs_open Ch Wit observe_commitment observe_value sample grind sample_bits in_proof
                                log_blowup num_queries (fri_inputs st) ch1 (open_input (Z.to_nat log_global) datas) with
                        | Some (proof, ch2) =>
                            if forallb (fun q => match fst q with Some _ => true | None => false end) (queries _ _ _ _ _ proof) then Some (opened, proof, ch2) else None
                        | None => None
                        end
                    end
                end
            end
        end
    end.
  (** VerifyOpeningProof, TF:225-324. *)
  Definition verify_opening (coms : list ICom) (dss : list (list (domain K))) (zss : list (list (list K))) (vss : list (list (list (list K)))) (proof : pcs_proof) (ch : Ch) : option (bool * Ch) :=
    let '(alpha, ch1) := sample ch in
    let log_global := (length (commits _ _ _ _ _ proof) + log_blowup)%nat in
    verify K adicity root Com Pf mmcs_verify Ch Wit observe_commitment observe_value sample check_witness sample_bits in_proof log_blowup num_queries proof ch1
      (check_openings alpha log_global coms dss zss vss).
End Pcs.
