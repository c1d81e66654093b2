(** Model of tachyon/zk/plonk/vanishing/graph_evaluator.h (GE), calculation.h (CA), value_source.h (VS), evaluation_input.h and of the Construct functions of custom_gate_evaluator.h, zk/lookup/halo2/evaluator.h,
    zk/lookup/log_derivative_halo2/evaluator.h and zk/shuffle/evaluator.h. Only definitions. [None] is a failed CHECK, a NOTREACHED or an access out of bounds. *)
From Coq Require Import ZArith List Arith Bool.
From Verif Require Import Field ExprModel.
Import ListNotations.

(** ValueSource, VS:16-40. *)
Inductive source : Type :=
| SConst (i : nat) | SInter (i : nat) | SFixed (c r : nat) | SAdvice (c r : nat) | SInstance (c r : nat) | SChallenge (i : nat)
| SBeta | SGamma | STheta | SY | SPrev.
(** operator==, VS:86-107. *)
Definition source_eqb (a b : source) : bool :=
  match a, b with
  | SConst i, SConst j | SInter i, SInter j | SChallenge i, SChallenge j => i =? j
  | SFixed c r, SFixed c' r' | SAdvice c r, SAdvice c' r' | SInstance c r, SInstance c' r' => (c =? c') && (r =? r')
  | SBeta, SBeta | SGamma, SGamma | STheta, STheta | SY, SY | SPrev, SPrev => true
  | _, _ => false
  end.
(** operator<=, VS:109-134: the order of the enumerators, then the indices. *)
Definition source_rank (a : source) : nat :=
  match a with
  | SConst _ => 0 | SInter _ => 1 | SFixed _ _ => 2 | SAdvice _ _ => 3 | SInstance _ _ => 4 | SChallenge _ => 5
  | SBeta => 6 | SGamma => 7 | STheta => 8 | SY => 9 | SPrev => 10
  end.
Definition source_leb (a b : source) : bool :=
  match a, b with
  | SConst i, SConst j | SInter i, SInter j | SChallenge i, SChallenge j => i <=? j
  | SFixed c r, SFixed c' r' | SAdvice c r, SAdvice c' r' | SInstance c r, SInstance c' r' => if c =? c' then r <=? r' else c <? c'
  | _, _ => source_rank a <=? source_rank b
  end.
(** IsZeroConstant, IsOneConstant, IsTwoConstant, VS:76-80. *)
Definition is_const (k : nat) (s : source) : bool := match s with SConst i => i =? k | _ => false end.

(** Calculation, CA:23-63 and 109-169. *)
Inductive calc : Type :=
| CAdd (l r : source) | CSub (l r : source) | CMul (l r : source) | CSquare (v : source) | CDouble (v : source) | CNegate (v : source)
| CHorner (init : source) (parts : list source) (factor : source) | CStore (v : source).
Fixpoint sources_eqb (a b : list source) : bool :=
  match a, b with [], [] => true | x :: a', y :: b' => source_eqb x y && sources_eqb a' b' | _, _ => false end.
(** operator==, CA:65-68. *)
Definition calc_eqb (a b : calc) : bool :=
  match a, b with
  | CAdd l r, CAdd l' r' | CSub l r, CSub l' r' | CMul l r, CMul l' r' => source_eqb l l' && source_eqb r r'
  | CSquare v, CSquare v' | CDouble v, CDouble v' | CNegate v, CNegate v' | CStore v, CStore v' => source_eqb v v'
  | CHorner i p f, CHorner i' p' f' => source_eqb i i' && sources_eqb p p' && source_eqb f f'
  | _, _ => false
  end.

Section Graph.
  Variable K : fld.
  Open Scope fld_scope.

  (** GraphEvaluator, GE:52-59 and 253-256. *)
  Record graph : Type := { constants : list K; rotations : list Z; calculations : list (calc * nat); num_intermediates : nat }.
  Definition empty_graph : graph := {| constants := [0; 1; 1 + 1]; rotations := []; calculations := []; num_intermediates := 0 |}.

  Fixpoint find_index {A} (p : A -> bool) (l : list A) : option nat :=
    match l with [] => None | x :: r => if p x then Some 0%nat else match find_index p r with Some i => Some (S i) | None => None end end.

  (** AddRotation, GE:236-244. The int32 value goes to size_t and back, which keeps it and equality of it. *)
  Definition add_rotation (rot : Z) (g : graph) : nat * graph :=
    match find_index (Z.eqb rot) (rotations g) with
    | Some i => (i, g)
    | None => (length (rotations g), {| constants := constants g; rotations := rotations g ++ [rot]; calculations := calculations g; num_intermediates := num_intermediates g |})
    end.
  (** AddConstant, GE:246-251. *)
  Definition add_constant (c : K) (g : graph) : source * graph :=
    match find_index (fun x => feqb x c) (constants g) with
    | Some i => (SConst i, g)
    | None => (SConst (length (constants g)), {| constants := constants g ++ [c]; rotations := rotations g; calculations := calculations g; num_intermediates := num_intermediates g |})
    end.
  (** AddCalculation, GE:219-228. *)
  Definition add_calculation (c : calc) (g : graph) : source * graph :=
    match find (fun info => calc_eqb (fst info) c) (calculations g) with
    | Some (_, target) => (SInter target, g)
    | None => (SInter (num_intermediates g), {| constants := constants g; rotations := rotations g; calculations := calculations g ++ [(c, num_intermediates g)]; num_intermediates := S (num_intermediates g) |})
    end.
  Definition add_store (mk : nat -> source) (rot : Z) (g : graph) : source * graph :=
    let (r, g1) := add_rotation rot g in add_calculation (CStore (mk r)) g1.

  (** Evaluate on an expression, GE:79-207; AddExpression, GE:231-233. *)
  Fixpoint add_expression (e : expr K) (g : graph) : option (source * graph) :=
    match e with
    | EConst c => Some (add_constant c g)
    | ESelector _ _ => None
    | EFixed c rot => Some (add_store (SFixed c) rot g)
    | EAdvice c rot => Some (add_store (SAdvice c) rot g)
    | EInstance c rot => Some (add_store (SInstance c) rot g)
    | EChallenge i => Some (add_calculation (CStore (SChallenge i)) g)
    | ENeg (EConst c) => Some (add_constant (- c) g)
    | ENeg e =>
        match add_expression e g with
        | None => None
        | Some (s, g1) => if is_const 0 s then Some (s, g1) else Some (add_calculation (CNegate s) g1)
        end
    | ESum l r =>
        match add_expression l g with
        | None => None
        | Some (sl, g1) =>
            match r with
            | ENeg r' =>
                match add_expression r' g1 with
                | None => None
                | Some (sr, g2) => if is_const 0 sl then Some (add_calculation (CNegate sr) g2)
                                   else if is_const 0 sr then Some (sl, g2)
                                   else Some (add_calculation (CSub sl sr) g2)
                end
            | _ =>
                match add_expression r g1 with
                | None => None
                | Some (sr, g2) => if is_const 0 sl then Some (sr, g2)
                                   else if is_const 0 sr then Some (sl, g2)
                                   else if source_leb sl sr then Some (add_calculation (CAdd sl sr) g2)
                                   else Some (add_calculation (CAdd sr sl) g2)
                end
            end
        end
    | EProd l r =>
        match add_expression l g with
        | None => None
        | Some (sl, g1) =>
            match add_expression r g1 with
            | None => None
            | Some (sr, g2) =>
                if is_const 0 sl || is_const 0 sr then Some (SConst 0, g2)
                else if is_const 1 sl then Some (sr, g2)
                else if is_const 1 sr then Some (sl, g2)
                else if is_const 2 sl then Some (add_calculation (CDouble sr) g2)
                else if is_const 2 sr then Some (add_calculation (CDouble sl) g2)
                else if source_eqb sl sr then Some (add_calculation (CSquare sl) g2)
                else if source_leb sl sr then Some (add_calculation (CMul sl sr) g2)
                else Some (add_calculation (CMul sr sl) g2)
            end
        end
    | EScaled e scale =>
        if feqb scale 0 then Some (SConst 0, g)
        else if feqb scale 1 then add_expression e g
        else let (sc, g1) := add_constant scale g in
             match add_expression e g1 with
             | None => None
             | Some (s, g2) => Some (add_calculation (CMul s sc) g2)
             end
    end.
  (** base::Map of AddExpression over a vector. *)
  Fixpoint add_expressions (es : list (expr K)) (g : graph) : option (list source * graph) :=
    match es with
    | [] => Some ([], g)
    | e :: r => match add_expression e g with
                | None => None
                | Some (s, g1) => match add_expressions r g1 with Some (ss, g2) => Some (s :: ss, g2) | None => None end
                end
    end.

  (** What an evaluation reads besides the graph: EvaluationInput (the table, n and the challenges) and previous_value. *)
  Record inputs : Type := { in_table_ : table K; in_n : Z; in_theta : K; in_beta : K; in_gamma : K; in_y : K; in_previous : K }.

  (** ValueSource::Get, VS:136-171, with the rotations and intermediates of the evaluation. *)
  Definition get (g : graph) (inp : inputs) (rots : list Z) (inters : list K) (s : source) : option K :=
    let at_rotation cols c r := match nth_error rots r with Some row => read_cell cols c row | None => None end in
    match s with
    | SConst i => nth_error (constants g) i
    | SInter i => nth_error inters i
    | SFixed c r => at_rotation (t_fixed (in_table_ inp)) c r
    | SAdvice c r => at_rotation (t_advice (in_table_ inp)) c r
    | SInstance c r => at_rotation (t_instance (in_table_ inp)) c r
    | SChallenge i => nth_error (t_challenges (in_table_ inp)) i
    | SBeta => Some (in_beta inp) | SGamma => Some (in_gamma inp) | STheta => Some (in_theta inp) | SY => Some (in_y inp)
    | SPrev => Some (in_previous inp)
    end.
  Fixpoint horner (gt : source -> option K) (factor acc : K) (parts : list source) : option K :=
    match parts with
    | [] => Some acc
    | p :: r => match gt p with Some v => horner gt factor (acc * factor + v) r | None => None end
    end.
  (** Calculation::Evaluate, CA:71-105. *)
  Definition calculate (gt : source -> option K) (c : calc) : option K :=
    let bin f l r := match gt l, gt r with Some x, Some y => Some (f x y) | _, _ => None end in
    match c with
    | CAdd l r => bin fadd l r
    | CSub l r => bin fsub l r
    | CMul l r => bin fmul l r
    | CSquare v => match gt v with Some x => Some (x * x) | None => None end
    | CDouble v => match gt v with Some x => Some (x + x) | None => None end
    | CNegate v => match gt v with Some x => Some (- x) | None => None end
    | CStore v => gt v
    | CHorner i p f => match gt f, gt i with Some fv, Some iv => horner gt fv iv p | _, _ => None end
    end.
  Definition store_at {A} (l : list A) (i : nat) (x : A) : option (list A) :=
    if i <? length l then Some (firstn i l ++ x :: skipn (S i) l) else None.
  Fixpoint run (g : graph) (inp : inputs) (rots : list Z) (cs : list (calc * nat)) (inters : list K) : option (list K) :=
    match cs with
    | [] => Some inters
    | (c, target) :: r =>
        match calculate (get g inp rots inters) c with
        | None => None
        | Some v => match store_at inters target v with Some inters' => run g inp rots r inters' | None => None end
        end
    end.
  Fixpoint rotation_indices (rots : list Z) (idx scale size : Z) : option (list Z) :=
    match rots with
    | [] => Some []
    | r :: rest => match rotation_index r idx scale size, rotation_indices rest idx scale size with Some x, Some y => Some (x :: y) | _, _ => None end
    end.
  (** The implicit conversion of the size_t [idx] to the int32_t parameter of GetIndex. *)
  Definition to_int32 (z : Z) : Z := ((z + 2 ^ 31) mod 2 ^ 32 - 2 ^ 31)%Z.
  (** Evaluate, GE:61-76: returns the value, and the intermediates, which the caller keeps for the next row. *)
  Definition evaluate (g : graph) (inp : inputs) (idx scale : Z) (inters : list K) : option (K * list K) :=
    match rotation_indices (rotations g) (to_int32 idx) scale (in_n inp) with
    | None => None
    | Some rots =>
        match run g inp rots (calculations g) inters with
        | None => None
        | Some inters' =>
            match rev (calculations g) with
            | [] => Some (0, inters')
            | (_, target) :: _ => match nth_error inters' target with Some v => Some (v, inters') | None => None end
            end
        end
    end.

  (** CustomGateEvaluator::Construct, custom_gate_evaluator.h:28-42: [polys] are the polynomials of all gates in order. *)
  Definition construct_gates (polys : list (expr K)) (g : graph) : option graph :=
    match add_expressions polys g with
    | None => None
    | Some (parts, g1) => Some (snd (add_calculation (CHorner SPrev parts SY) g1))
    end.
  (** compress, lookup/halo2/evaluator.h:31-43. *)
  Definition add_compressed (es : list (expr K)) (g : graph) : option (source * graph) :=
    match add_expressions es g with
    | None => None
    | Some (parts, g1) => Some (add_calculation (CHorner (SConst 0) parts STheta) g1)
    end.
  (** One argument of lookup::halo2::Evaluator::Construct, lines 26-62. *)
  Definition construct_lookup (input table_ : list (expr K)) : option graph :=
    match add_compressed input empty_graph with
    | None => None
    | Some (si, g1) =>
        match add_compressed table_ g1 with
        | None => None
        | Some (st, g2) =>
            let (l, g3) := add_calculation (CAdd si SBeta) g2 in
            let (r, g4) := add_calculation (CAdd st SGamma) g3 in
            Some (snd (add_calculation (CMul l r) g4))
        end
    end.
  (** One graph of lookup::log_derivative_halo2::Evaluator::Construct (SBeta, lines 45-71) and of shuffle::Evaluator::Construct (SGamma, shuffle/evaluator.h:38-64): compressed expressions plus a challenge. *)
  Definition construct_shifted (es : list (expr K)) (shift : source) : option graph :=
    match add_compressed es empty_graph with
    | None => None
    | Some (s, g1) => Some (snd (add_calculation (CAdd s shift) g1))
    end.
End Graph.
Arguments constants {K}. Arguments rotations {K}. Arguments calculations {K}. Arguments num_intermediates {K}. Arguments Build_graph {K}. Arguments empty_graph {K}.
Arguments add_rotation {K}. Arguments add_constant {K}. Arguments add_calculation {K}. Arguments add_store {K}. Arguments add_expression {K}. Arguments add_expressions {K}.
Arguments in_table_ {K}. Arguments in_n {K}. Arguments in_theta {K}. Arguments in_beta {K}. Arguments in_gamma {K}. Arguments in_y {K}. Arguments in_previous {K}. Arguments Build_inputs {K}.
Arguments get {K}. Arguments horner {K}. Arguments calculate {K}. Arguments run {K}. Arguments evaluate {K}. Arguments construct_gates {K}. Arguments add_compressed {K}. Arguments construct_lookup {K}. Arguments construct_shifted {K}.
