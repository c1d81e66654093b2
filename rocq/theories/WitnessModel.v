(** Model of the prover's witness collection: tachyon/zk/plonk/halo2/witness_collection.h:22-79, and of the columns made from it
    in tachyon/zk/plonk/halo2/synthesizer.h:61-85.  R is the type of the cells (RationalField<F>), F the field.  RowIndex, column
    indices and phases are natural numbers: nothing is added to them here.  Annotation names are left out. *)
From Coq Require Import List Bool Arith.
Import ListNotations.

Section Witness.
  Variables R F : Type.
  Variable rzero : R.

  (** Results of a call: finished, a CHECK failed, or the empty optional of a Value was read (undefined). *)
  Inductive result (A : Type) := Finished (a : A) | Stopped | Undefined.
  Arguments Finished {A}. Arguments Stopped {A}. Arguments Undefined {A}.

  (** witness_collection.h:73-77 *)
  Record witness := mk_witness {
    w_advices : list (list R); w_usable : nat; w_phase : nat; w_challenges : list (nat * F); w_instances : list (list F) }.

  (** One call of AssignAdvice: column index and phase, row, and the Value its callback returns (None: Unknown). *)
  Record call := mk_call { c_column : nat; c_phase : nat; c_row : nat; c_value : option R }.

  (** witness_collection.h:28-39; domain->Zero has as many zeros as the domain elements (univariate_evaluation_domain.h:129-131) *)
  Definition witness_new (n cols usable phase : nat) (challenges : list (nat * F)) (instances : list (list F)) : witness :=
    mk_witness (repeat (repeat rzero n) cols) usable phase challenges instances.

  (** Writing one entry of a vector *)
  Fixpoint put {A : Type} (l : list A) (i : nat) (a : A) : list A :=
    match l, i with
    | [], _ => []
    | _ :: r, O => a :: r
    | x :: r, S j => x :: put r j a
    end.

  (** witness_collection.h:53-64; the right side of the assignment is evaluated before at(), which checks the row
      (univariate_evaluations.h:131-134).  The flag says whether the callback was run. *)
  Definition assign_advice (w : witness) (c : call) : result (bool * witness) :=
    if Nat.ltb (w_phase w) (c_phase c) then Finished (false, w)
    else if negb (Nat.ltb (c_row c) (w_usable w)) then Stopped
    else match nth_error (w_advices w) (c_column c) with
         | None => Stopped
         | Some column =>
             match c_value c with
             | None => Undefined
             | Some v =>
                 if Nat.ltb (c_row c) (length column)
                 then Finished (true, mk_witness (put (w_advices w) (c_column c) (put column (c_row c) v))
                                        (w_usable w) (w_phase w) (w_challenges w) (w_instances w))
                 else Stopped
             end
         end.

  (** The calls of a synthesis, one after another *)
  Fixpoint assign_all (w : witness) (cs : list call) : result (list bool * witness) :=
    match cs with
    | [] => Finished ([], w)
    | c :: r =>
        match assign_advice w c with
        | Finished (b, w1) =>
            match assign_all w1 r with
            | Finished (bs, w2) => Finished (b :: bs, w2)
            | Stopped => Stopped
            | Undefined => Undefined
            end
        | Stopped => Stopped
        | Undefined => Undefined
        end
    end.

  Variables fzero fone : F.
  (** witness_collection.h:45-51; operator[] gives zero beyond the end (univariate_evaluations.h:142-147) *)
  Definition query_instance (w : witness) (column row : nat) : result F :=
    if negb (Nat.ltb row (w_usable w)) then Stopped
    else match nth_error (w_instances w) column with
         | None => Stopped
         | Some l => Finished (nth row l fzero)
         end.

  (** witness_collection.h:66-71; the map as a list of pairs *)
  Definition get_challenge (w : witness) (i : nat) : option F :=
    option_map snd (find (fun q => Nat.eqb (fst q) i) (w_challenges w)).

  (** synthesizer.h:70-77: a column evaluated, and one written into its last row.  ev is RationalField::Evaluate; that
      BatchEvaluate does it for every entry is the subject of another property. *)
  Definition finish_column (ev : R -> F) (n : nat) (column : list R) : list F := put (map ev column) (n - 1) fone.
  (** synthesizer.h:61-85: the columns of the current phase with their indices, in the order they are committed in *)
  Definition phase_columns (ev : R -> F) (n phase : nat) (phases : list nat) (advices : list (list R)) : list (nat * list F) :=
    flat_map (fun q => if Nat.eqb phase (fst (snd q)) then [(fst q, finish_column ev n (snd (snd q)))] else [])
      (combine (seq 0 (length advices)) (combine phases advices)).
End Witness.
Arguments Finished {A}. Arguments Stopped {A}. Arguments Undefined {A}.
Arguments mk_witness {R F}. Arguments w_advices {R F}. Arguments w_usable {R F}. Arguments w_phase {R F}.
Arguments w_challenges {R F}. Arguments w_instances {R F}. Arguments mk_call {R}. Arguments c_column {R}. Arguments c_phase {R}.
Arguments c_row {R}. Arguments c_value {R}. Arguments witness_new {R F}. Arguments assign_advice {R F}. Arguments assign_all {R F}.
Arguments query_instance {R F}. Arguments get_challenge {R F}. Arguments finish_column {R F}. Arguments phase_columns {R F}.
