(** Model of tachyon/crypto/commitments/fri: fri_config.h (FC), prove.h (PR), verify.h (VE), fri_proof.h. Only definitions.
    ExtF and its base field F are one field [K]: the roots of unity are lifted into ExtF by the code before use.
    The matrix commitment scheme (FRIConfig::mmcs) and the challenger are the parameters of the sections below: C55, C56, C59 and C60 are about them.
    [None] is a failed CHECK, an undefined shift or an access out of bounds. *)
From Coq Require Import ZArith List Arith Bool.
From Verif Require Import Field BitsModel SemigroupModel FFTModel.
Import ListNotations.
Open Scope nat_scope.

Section Fold.
  Variable K : fld.
  Open Scope fld_scope.
  (** kTwoAdicity and kTwoAdicRootOfUnity of F. *)
  Variables (adicity : nat) (root : K).

  (** ExtF::TwoInv(). *)
  Definition two_inv : K := finv (1 + 1).
  (** F::GetRootOfUnity with CHECK, then ExtF(unwrap(w.Inverse())), FC:48-51 and 79-81. *)
  Definition inverse_root (log_size : nat) : option K :=
    match get_root_of_unity adicity root (2 ^ Z.of_nat log_size) with
    | Some w => if feqb w 0 then None else Some (finv w)
    | None => None
    end.
  (** result(g^2i) of FC:62-63 and 90. *)
  Definition fold_pair (power lo hi : K) : K := (two_inv + power) * lo + (two_inv - power) * hi.

  (** FoldRow, FC:71-91. *)
  Definition fold_row (index log_num_rows : nat) (beta : K) (evals : list K) : option K :=
    match inverse_root (log_num_rows + 1), reverse_bits_len (Z.of_nat index) (Z.of_nat log_num_rows), evals with
    | Some w_inv, Some r, lo :: hi :: _ =>
        Some (fold_pair (do_pow (1 : K) fmul (fun y => y * y) [r] w_inv * (beta * two_inv)) lo hi)
    | _, _, _ => None
    end.

  (** mat(r, 0), mat(r, 1) and powers[r] for all rows, FC:57-64; the rows are independent. *)
  Fixpoint fold_rows (powers : list K) (mat : list (list K)) : option (list K) :=
    match mat with
    | [] => Some []
    | row :: mat' =>
        match powers, row with
        | p :: powers', lo :: hi :: _ => match fold_rows powers' mat' with Some r => Some (fold_pair p lo hi :: r) | None => None end
        | _, _ => None
        end
    end.
  (** FoldMatrix, FC:30-67. The writes of GetBitRevIndexSuccessivePowers are performed chunk after chunk; they give the same vector in any interleaving (C15). *)
  Definition fold_matrix (threads : Z) (beta : K) (mat : list (list K)) : option (list K) :=
    let rows := length mat in
    match checked_log2 64 (Z.of_nat rows) with
    | None => None
    | Some log =>
        match inverse_root (Z.to_nat log + 1) with
        | None => None
        | Some w_inv =>
            match get_bitrev_powers_writes (1 : K) fmul (fun y => y * y) (fun x => feqb x 1) threads rows w_inv (beta * two_inv) with
            | None => None
            | Some ws => match apply_writes ws (repeat (0 : K) rows) with Some powers => fold_rows powers mat | None => None end
            end
        end
    end.

  (** The leaves of CommitPhase, PR:46-57: leaves(i / 2, i % 2) = folded[i]. An odd size would leave one entry unset. *)
  Fixpoint leaves (folded : list K) : option (list (list K)) :=
    match folded with
    | [] => Some []
    | [_] => None
    | a :: b :: r => match leaves r with Some m => Some ([a; b] :: m) | None => None end
    end.
  Definition add_vectors (a b : list K) : list K := map (fun p => fst p + snd p) (combine a b).
  (** PR:76-82. *)
  Fixpoint add_inputs (folded : list K) (inputs : list (list K)) : list K :=
    match inputs with
    | [] => folded
    | v :: r => add_inputs (if length v =? length folded then add_vectors folded v else folded) r
    end.
End Fold.
Arguments two_inv {K}. Arguments inverse_root {K}. Arguments fold_pair {K}. Arguments fold_row {K}. Arguments fold_rows {K}. Arguments fold_matrix {K}. Arguments leaves {K}. Arguments add_inputs {K}. Arguments add_vectors {K}.

Section Fri.
  Variable K : fld.
  Open Scope fld_scope.
  Variables (adicity : nat) (root : K) (threads : Z).
  (** The mixed matrix commitment scheme for one matrix: Commitment, ProverData, Proof; CommitOwned, GetMatrices(..).back(), CreateOpeningProof, VerifyOpeningProof(commitment, (width, height), index, rows, proof). *)
  Variables (Com Data Pf : Type).
  Variable mmcs_commit : list (list K) -> option (Com * Data).
  Variable mmcs_matrix : Data -> list (list K).
  Variable mmcs_open : nat -> Data -> option (list (list K) * Pf).
  Variable mmcs_verify : Com -> nat * nat -> nat -> list (list K) -> Pf -> bool.
  (** The challenger: its state, ObserveContainer of a commitment and of a value, SampleExtElement, Grind, CheckWitness, SampleBits. *)
  Variables (Ch Wit : Type).
  Variable observe_commitment : Ch -> Com -> Ch.
  Variable observe_value : Ch -> K -> Ch.
  Variable sample : Ch -> K * Ch.
  Variable grind : Ch -> Wit * Ch.
  Variable check_witness : Ch -> Wit -> bool * Ch.
  Variable sample_bits : nat -> Ch -> nat * Ch.
  (** InputProof. *)
  Variable InProof : Type.

  (** FRIConfig, FC:19-28 (proof_of_work_bits is in [grind] and [check_witness]). *)
  Variables (log_blowup num_queries : nat).

  (** CommitPhase, PR:45-84: the loop; the matrices, the commitments with their data, and the last vector. *)
  Fixpoint commit_loop (fuel : nat) (folded : list K) (inputs : list (list K)) (ch : Ch) : option (list (Com * Data) * list K * Ch) :=
    if length folded <=? 2 ^ log_blowup then Some ([], folded, ch)
    else match fuel with
         | O => None
         | S fuel' =>
             match leaves folded with
             | None => None
             | Some m =>
                 match mmcs_commit m with
                 | None => None
                 | Some (c, d) =>
                     let '(beta, ch1) := sample (observe_commitment ch c) in
                     match fold_matrix adicity root threads beta (mmcs_matrix d) with
                     | None => None
                     | Some f =>
                         match commit_loop fuel' (add_inputs f inputs) inputs ch1 with
                         | None => None
                         | Some (cs, last, ch2) => Some ((c, d) :: cs, last, ch2)
                         end
                     end
                 end
             end
         end.
  (** CommitPhase, PR:22-100. The DCHECK that all values of the last vector agree is compiled out of release builds. *)
  Definition commit_phase (inputs : list (list K)) (ch : Ch) : option (list (Com * Data) * K * Ch) :=
    match inputs with
    | [] => None
    | first :: rest =>
        match checked_log2 64 (Z.of_nat (length first)) with
        | None => None
        | Some log =>
            match commit_loop (Z.to_nat log) first rest ch with
            | None => None
            | Some (cs, last, ch1) =>
                if length last =? 2 ^ log_blowup then
                  match last with final :: _ => Some (cs, final, observe_value ch1 final) | [] => None end
                else None
            end
        end
    end.

  (** AnswerQuery, PR:102-127: step [i] opens row (index >> i) >> 1 and keeps the sibling. *)
  Fixpoint answer_query (index : nat) (data : list Data) : option (list (K * Pf)) :=
    match data with
    | [] => Some []
    | d :: r =>
        match mmcs_open (Nat.div index 2) d with
        | Some ([[a; b]], pf) =>
            match answer_query (Nat.div index 2) r with
            | Some l => Some ((if Nat.odd index then a else b, pf) :: l)
            | None => None
            end
        | _ => None
        end
    end.

  (** FRIProof: commit_phase_commits, query_proofs (input proof and openings), final_eval, pow_witness. *)
  Record fri_proof : Type := { commits : list Com; queries : list (InProof * list (K * Pf)); final_eval : K; pow_witness : Wit }.

  (** The query proofs, PR:152-163. *)
  Fixpoint answer_queries (n log_max : nat) (open_input : nat -> InProof) (data : list Data) (ch : Ch) : option (list (InProof * list (K * Pf)) * Ch) :=
    match n with
    | O => Some ([], ch)
    | S n' =>
        let '(index, ch1) := sample_bits log_max ch in
        match answer_query index data with
        | None => None
        | Some a => match answer_queries n' log_max open_input data ch1 with
                    | Some (qs, ch2) => Some ((open_input index, a) :: qs, ch2)
                    | None => None
                    end
        end
    end.
  (** Prove, PR:129-166. *)
  Definition prove (inputs : list (list K)) (ch : Ch) (open_input : nat -> InProof) : option (fri_proof * Ch) :=
    match checked_log2 64 (Z.of_nat (length (hd [] inputs))) with
    | None => None
    | Some log_max =>
        match commit_phase inputs ch with
        | None => None
        | Some (cs, final, ch1) =>
            let '(w, ch2) := grind ch1 in
            match answer_queries num_queries (Z.to_nat log_max) open_input (map snd cs) ch2 with
            | Some (qs, ch3) => Some ({| commits := map fst cs; queries := qs; final_eval := final; pow_witness := w |}, ch3)
            | None => None
            end
        end
    end.

  (** VerifyQuery, VE:30-61. [log] is log_folded_num_rows + 1 of the next step; the pairs of ro_num_rows and ro_values that are not yet used are [ro]. *)
  Fixpoint verify_steps (steps : list (K * Com * (K * Pf))) (log index : nat) (folded : K) (ro : list (nat * K)) : option (nat * K * list (nat * K)) :=
    match steps with
    | [] => Some (index, folded, ro)
    | (beta, c, (sibling, pf)) :: r =>
        match log with
        | O => None
        | S log' =>
            let '(folded1, ro1) := match ro with (rows, v) :: ro' => if rows =? log then (folded + v, ro') else (folded, ro) | [] => (folded, ro) end in
            let evals := if Nat.odd index then [sibling; folded1] else [folded1; sibling] in
            if mmcs_verify c (2, 2 ^ log')%nat (Nat.div index 2) [evals] pf then
              match fold_row adicity root (Nat.div index 2) log' beta evals with
              | None => None
              | Some f => verify_steps r log' (Nat.div index 2) f ro1
              end
            else None
        end
    end.
  Definition verify_query (index log_max : nat) (steps : list (K * Com * (K * Pf))) (ro : list (nat * K)) : option K :=
    match verify_steps steps log_max index 0 ro with
    | Some (index', folded, []) => if index' <? 2 ^ log_blowup then Some folded else None
    | _ => None
    end.

  (** The challenges of Verify, VE:71-78. *)
  Fixpoint sample_betas (cs : list Com) (ch : Ch) : list K * Ch :=
    match cs with
    | [] => ([], ch)
    | c :: r => let '(beta, ch1) := sample (observe_commitment ch c) in let '(bs, ch2) := sample_betas r ch1 in (beta :: bs, ch2)
    end.
  (** The steps of a query, VE:112-117: commit_phase_openings[j] for each commitment. *)
  Fixpoint zip_steps (betas : list K) (cs : list Com) (openings : list (K * Pf)) : option (list (K * Com * (K * Pf))) :=
    match betas, cs, openings with
    | b :: bs, c :: cs', o :: os => match zip_steps bs cs' os with Some r => Some ((b, c, o) :: r) | None => None end
    | [], [], _ => Some []
    | _, _, _ => None
    end.
  (** The queries, VE:100-127; [open_input] returns the reduced openings, or aborts. *)
  Fixpoint verify_queries (log_max : nat) (betas : list K) (cs : list Com) (final : K) (open_input : nat -> InProof -> option (list (nat * K))) (qs : list (InProof * list (K * Pf))) (ch : Ch) : option (bool * Ch) :=
    match qs with
    | [] => Some (true, ch)
    | (inp, openings) :: r =>
        let '(index, ch1) := sample_bits log_max ch in
        match open_input index inp, zip_steps betas cs openings with
        | Some ro, Some steps =>
            match verify_query index log_max steps ro with
            | None => None
            | Some f => if feqb f final then verify_queries log_max betas cs final open_input r ch1 else Some (false, ch1)
            end
        | _, _ => None
        end
    end.
  (** Verify, VE:63-129. *)
  Definition verify (proof : fri_proof) (ch : Ch) (open_input : nat -> InProof -> option (list (nat * K))) : option (bool * Ch) :=
    let '(betas, ch1) := sample_betas (commits proof) ch in
    let ch2 := observe_value ch1 (final_eval proof) in
    if negb (length (queries proof) =? num_queries) then Some (false, ch2)
    else let '(ok, ch3) := check_witness ch2 (pow_witness proof) in
         if ok then verify_queries (length (commits proof) + log_blowup) betas (commits proof) (final_eval proof) open_input (queries proof) ch3
         else Some (false, ch3).
End Fri.
