(** C110, C111: the graphs that evaluate the constraints row by row. *)
From Coq Require Import ZArith List Arith Bool Lia.
From Verif Require Import Field Zp ExprModel ExprSpec GraphModel GraphSpec GraphExtra.
Import ListNotations.
Open Scope nat_scope.

(** ** C110: the custom gate graph. For any gate polynomials over existing columns, Construct succeeds, and evaluating the graph at any row, with any challenges, previous value and stale intermediates, returns the Horner combination by y of the gate values at that row. *)
Theorem C110_gate_graph_value : forall (K : fld) (t : table K) (n : nat) (polys : list (expr K)),
  table_of t n -> 0 < n -> (Z.of_nat n <= 2 ^ 30)%Z -> Forall (in_table t n) polys ->
  exists G, construct_gates polys empty_graph = Some G /\
    evaluates_to t n G (fun v theta beta gamma y prev => fold_left (fun acc e => acc * y + value v e)%fld polys prev).
Proof. exact (fun K t n polys Ht Hn0 Hn => gates_graph K t n Ht Hn Hn0 polys). Qed.
Print Assumptions C110_gate_graph_value.

Definition g13 (z : Z) : F13 := mkz 13 (prime_check_sound 13 eq_refl) z.
Definition table13 : table F13 := {| t_fixed := [[g13 1; g13 0; g13 5; g13 2]]; t_advice := [[g13 3; g13 4; g13 6; g13 11]; [g13 9; g13 1; g13 0; g13 8]]; t_instance := [[g13 7; g13 7; g13 1; g13 2]]; t_challenges := [g13 10] |}.
(** Shared subexpressions, a subtraction, a doubling, a square, a zero scale and rotations in both directions. *)
Definition polys13 : list (expr F13) :=
  [EProd (EFixed 0 0) (esub (EAdvice 0 1) (EAdvice 1 (-1))); ESum (EProd (EConst (g13 2)) (EInstance 0 0)) (EScaled (EAdvice 0 1) (g13 0)); EProd (EAdvice 0 1) (EAdvice 0 1); ENeg (EScaled (EChallenge 0) (g13 4))].
Example C110_nonvacuous : table_of table13 4 /\ Forall (in_table table13 4) polys13 /\
  match construct_gates polys13 empty_graph with
  | Some G => option_map (fun r => zval 13 (fst r)) (evaluate G {| in_table_ := table13; in_n := 4; in_theta := g13 1; in_beta := g13 2; in_gamma := g13 3; in_y := g13 5; in_previous := g13 6 |} 3 1 (repeat (g13 12) (num_intermediates G))) = Some 3%Z
              /\ length (calculations G) = 12
  | None => False
  end.
Proof. split; [repeat constructor|]. split; [repeat constructor; cbn; lia|]. vm_compute. auto. Qed.

(** ** C111: the lookup graph returns (input + beta) * (table + gamma), both compressed by theta; the log-derivative and shuffle graphs return one compressed side plus their challenge. *)
Theorem C111_lookup_graph_value : forall (K : fld) (t : table K) (n : nat) (input table_ : list (expr K)),
  table_of t n -> 0 < n -> (Z.of_nat n <= 2 ^ 30)%Z -> Forall (in_table t n) input -> Forall (in_table t n) table_ ->
  exists G, construct_lookup input table_ = Some G /\
    evaluates_to t n G (fun v theta beta gamma y prev => (compressed v theta input + beta) * (compressed v theta table_ + gamma))%fld.
Proof. exact (fun K t n input table_ Ht Hn0 Hn => lookup_graph K t n Ht Hn Hn0 input table_). Qed.
Print Assumptions C111_lookup_graph_value.

Theorem C111_shifted_graph_value : forall (K : fld) (t : table K) (n : nat) (es : list (expr K)) (shift : source),
  table_of t n -> 0 < n -> (Z.of_nat n <= 2 ^ 30)%Z -> shift = SBeta \/ shift = SGamma -> Forall (in_table t n) es ->
  exists G, construct_shifted es shift = Some G /\
    evaluates_to t n G (fun v theta beta gamma y prev => compressed v theta es + match shift with SBeta => beta | _ => gamma end)%fld.
Proof. exact (fun K t n es shift Ht Hn0 Hn => shifted_graph K t n Ht Hn Hn0 es shift). Qed.
Print Assumptions C111_shifted_graph_value.

(** Also when both sides are the same expressions, so that one compression is shared. *)
Example C111_nonvacuous : Forall (in_table table13 4) [EAdvice 0 0; EFixed 0 1] /\
  match construct_lookup [EAdvice 0 0; EFixed 0 1] [EAdvice 0 0; EFixed 0 1] with
  | Some G => option_map (fun r => zval 13 (fst r)) (evaluate G {| in_table_ := table13; in_n := 4; in_theta := g13 5; in_beta := g13 2; in_gamma := g13 3; in_y := g13 1; in_previous := g13 6 |} 1 1 (repeat (g13 12) (num_intermediates G))) = Some ((4 * 5 + 5 + 2) * (4 * 5 + 5 + 3) mod 13)%Z
              /\ length (calculations G) = 6
  | None => False
  end.
Proof. split; [repeat constructor; cbn; lia|]. vm_compute. auto. Qed.
