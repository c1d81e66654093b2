(** Vocabulary for the vanishing argument: what the prover's polynomials are at a point and on a row, and when a circuit is satisfied. *)
From Coq Require Import ZArith List Arith.
From Verif Require Import Field PolySpec ExprModel ExprSpec GrandProductModel GrandProductSpec VanishingModel.
Import ListNotations.
Open Scope fld_scope.

Section Spec.
  Context {K : fld}.
  (** The point that a rotation leads to from [x]: x times w^r, where w has order [n]. *)
  Definition rotated (w : K) (n : nat) (x : K) (r : Z) : K := x * w ^ Z.to_nat (r mod Z.of_nat n).
  (** The values of the polynomials of a table at [x] and its rotations. *)
  Definition leaves_at (w : K) (n : nat) (t : table K) (x : K) : leaves K :=
    {| v_fixed := fun c r => eval (nth c (t_fixed t) []) (rotated w n x r);
       v_advice := fun c r => eval (nth c (t_advice t) []) (rotated w n x r);
       v_instance := fun c r => eval (nth c (t_instance t) []) (rotated w n x r);
       v_challenge := fun i => nth i (t_challenges t) 0;
       v_selector := fun _ => 0 |}.
  (** What an honest proof contains for the point [x]. *)
  Definition evaluations_at (w : K) (n bf : nat) (sigmas : list (list K)) (wit : witness K) (x : K) : evaluations K :=
    let at_ r := map (fun p => eval p (rotated w n x r)) in
    {| ev_leaves := leaves_at w n (wit_table wit) x;
       ev_products := at_ 0%Z (wit_products wit); ev_nexts := at_ 1%Z (wit_products wit); ev_lasts := at_ (- Z.of_nat (bf + 1))%Z (wit_products wit);
       ev_sigmas := at_ 0%Z sigmas;
       ev_lookups := map (fun l => let '(z, a, s) := l in (eval z x, eval z (rotated w n x 1), eval a x, eval a (rotated w n x (-1)), eval s x)) (wit_lookups wit) |}.
  (** The same things read off columns of [n] values on row [j]: the grand products are also read on the next row and on the row [n - bf - 1] further. *)
  Definition row_evaluations (n bf : nat) (sigmas : list (list K)) (wit : witness K) (j : nat) : evaluations K :=
    {| ev_leaves := row_leaves (wit_table wit) n j;
       ev_products := row_of (wit_products wit) j; ev_nexts := row_of (wit_products wit) (next_row n j);
       ev_lasts := row_of (wit_products wit) (Nat.modulo (j + (n - (bf + 1))) n);
       ev_sigmas := row_of sigmas j;
       ev_lookups := map (fun l => let '(z, a, s) := l in (cell z j, cell z (next_row n j), cell a j, cell a (prev_row n j), cell s j)) (wit_lookups wit) |}.
  (** The constraints of the circuit on row [j]: the verifier's expressions with the indicators of the first row, of the row after the usable ones and of the rows after that. *)
  Definition row_constraints (sys : constraint_system K) (ch : challenges K) (delta w : K) (n bf : nat) (sigmas : list (list K)) (wit : witness K) (j : nat) : list K :=
    circuit_evals sys ch delta (first_row j) (last_row (n - (bf + 1)) j) (blind_row (n - (bf + 1)) j) (w ^ j) (row_evaluations n bf sigmas wit j).
  (** Every constraint holds on every row. *)
  Definition satisfied (sys : constraint_system K) (ch : challenges K) (delta w : K) (n bf : nat) (sigmas : list (list K)) (wit : witness K) : Prop :=
    forall j, (j < n)%nat -> Forall (fun e => e = 0) (row_constraints sys ch delta w n bf sigmas wit j).

  (** [poly] has at most [n] coefficients and its values on 1, w, w^2, ... are the [column]. *)
  Definition interpolates (w : K) (n : nat) (poly column : list K) : Prop := (length poly <= n)%nat /\ column = map (fun j => eval poly (w ^ j)) (seq 0 n).
  Definition table_interpolates (w : K) (n : nat) (polys columns : table K) : Prop :=
    Forall2 (interpolates w n) (t_fixed polys) (t_fixed columns) /\ Forall2 (interpolates w n) (t_advice polys) (t_advice columns) /\
    Forall2 (interpolates w n) (t_instance polys) (t_instance columns) /\ t_challenges polys = t_challenges columns.
  Definition witness_interpolates (w : K) (n : nat) (polys columns : witness K) : Prop :=
    table_interpolates w n (wit_table polys) (wit_table columns) /\ Forall2 (interpolates w n) (wit_products polys) (wit_products columns) /\
    Forall2 (fun p c => interpolates w n (fst (fst p)) (fst (fst c)) /\ interpolates w n (snd (fst p)) (snd (fst c)) /\ interpolates w n (snd p) (snd c)) (wit_lookups polys) (wit_lookups columns).

  (** The shape of what is proved: every query exists, every column of the permutation has its polynomial, there is a grand product for every chunk of columns and one for every lookup. *)
  Definition column_in (t : table K) (c : any_column) : Prop :=
    match c with AnyFixed i => (i < length (t_fixed t))%nat | AnyAdvice i => (i < length (t_advice t))%nat | AnyInstance i => (i < length (t_instance t))%nat end.
  Definition shaped (sys : constraint_system K) (n : nat) (sigmas : list (list K)) (wit : witness K) : Prop :=
    Forall (in_table (wit_table wit) n) (sys_gates sys) /\
    Forall (fun l => Forall (in_table (wit_table wit) n) (fst l) /\ Forall (in_table (wit_table wit) n) (snd l)) (sys_lookups sys) /\
    Forall (column_in (wit_table wit)) (sys_columns sys) /\
    length sigmas = length (sys_columns sys) /\
    length (wit_products wit) = Nat.div (length (sys_columns sys) + permutation_chunk_len sys - 1) (permutation_chunk_len sys) /\
    length (wit_lookups wit) = length (sys_lookups sys).
  (** The same challenges with another y. *)
  Definition with_y (ch : challenges K) (y : K) : challenges K := {| ch_theta := ch_theta ch; ch_beta := ch_beta ch; ch_gamma := ch_gamma ch; ch_y := y |}.
  (** The size of a proof of one circuit: the number of its constraints. *)
  Definition number_of_constraints (sys : constraint_system K) : nat :=
    let chunks := Nat.div (length (sys_columns sys) + permutation_chunk_len sys - 1) (permutation_chunk_len sys) in
    (length (sys_gates sys) + (match chunks with O => 0 | _ => 1 + 2 * chunks end) + 5 * length (sys_lookups sys))%nat.
End Spec.
