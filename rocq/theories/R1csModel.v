(** Model of zk/r1cs/constraint_system: variables, linear combinations, the constraint system and its matrices.
    Only definitions. [None] is a CHECK failure or undefined behaviour (an index outside a container, an iterator or an
    optional that holds nothing). size_t counters are natural numbers: a system with 2^64 entries does not fit in memory. *)
From Coq Require Import List Bool Arith.
From Verif Require Import Field.
Import ListNotations.

(** variable.h:19-53 Variable: a type and, for the last three types, an index. *)
Inductive var := VZero | VOne | VInst (i : nat) | VWit (i : nat) | VLc (i : nat).
(** variable.h:21-34: the order of the types. *)
Definition var_type (v : var) : nat := match v with VZero => 0 | VOne => 1 | VInst _ => 2 | VWit _ => 3 | VLc _ => 4 end.
(** variable.h:53 index(); the constants have index 0. *)
Definition var_index (v : var) : nat := match v with VZero | VOne => 0 | VInst i | VWit i | VLc i => i end.
(** variable.h:83-85 operator==. *)
Definition var_eqb (a b : var) : bool := Nat.eqb (var_type a) (var_type b) && Nat.eqb (var_index a) (var_index b).
(** variable.h:87-101 operator<. *)
Definition var_ltb (a b : var) : bool :=
  if Nat.eqb (var_type a) (var_type b)
  then match a with VZero | VOne => false | _ => Nat.ltb (var_index a) (var_index b) end
  else Nat.ltb (var_type a) (var_type b).
(** variable.h:102-117 operator<= and operator>. *)
Definition var_leb (a b : var) : bool :=
  if Nat.eqb (var_type a) (var_type b)
  then match a with VZero | VOne => true | _ => Nat.leb (var_index a) (var_index b) end
  else Nat.ltb (var_type a) (var_type b).
Definition var_gtb (a b : var) : bool := negb (var_leb a b).
(** variable.h:55-69 GetIndex; [None] is nullopt. *)
Definition get_index (witness_offset : nat) (v : var) : option nat :=
  match v with
  | VOne => Some 0
  | VInst i => Some i
  | VWit i => Some (witness_offset + i)
  | VZero | VLc _ => None
  end.

Fixpoint set_at {A} (l : list A) (i : nat) (x : A) : list A :=
  match l, i with
  | [], _ => []
  | _ :: r, O => x :: r
  | y :: r, S j => y :: set_at r j x
  end.

Section R1cs.
  Context {K : fld}.
  Open Scope fld_scope.

  (** term.h:19-21 Term: a coefficient and a variable. *)
  Definition term : Type := K * var.
  (** linear_combination.h:27-37 LinearCombination: its terms, in order. *)
  Definition lc : Type := list term.

  (** linear_combination.h:65-88 Deduplicate after the sort. The loop that adds a coefficient to the first term of its run
      (70-81) and std::unique (82-87), which keeps that first term, are fused: [cur] is the first term of the run. *)
  Fixpoint dedup_from (cur : term) (l : lc) : lc :=
    match l with
    | [] => [cur]
    | t :: r => if var_eqb (snd cur) (snd t) then dedup_from (fst cur + fst t, snd cur) r else cur :: dedup_from t r
    end.
  (** linear_combination.h:65-88 Deduplicate; [sort] is base::UnstableSort by operator< on the variables. *)
  Definition deduplicate (sort : lc -> lc) (l : lc) : lc :=
    match sort l with [] => [] | t :: r => dedup_from t r end.

  (** linear_combination.h:230-241 GetVarLocation, the scan used below the threshold; [i] is the loop counter. *)
  Fixpoint scan_location (l : lc) (v : var) (i : nat) : bool * nat :=
    match l with
    | [] => (false, i)
    | t :: r => if var_eqb (snd t) v then (true, i) else if var_gtb (snd t) v then (false, i) else scan_location r v (S i)
    end.
  (** linear_combination.h:252-277 BinarySearch; [fuel] bounds the iterations. [None]: an index outside the terms. *)
  Fixpoint binary_search (fuel : nat) (l : lc) (v : var) (left right size : nat) : option (bool * nat) :=
    if Nat.ltb left right then
      match fuel with
      | O => None
      | S f =>
          let mid := (left + Nat.div size 2)%nat in
          match nth_error l mid with
          | None => None
          | Some t =>
              if var_ltb (snd t) v then binary_search f l v (S mid) right (right - S mid)
              else if var_gtb (snd t) v then binary_search f l v left mid (mid - left)
              else Some (true, mid)
          end
      end
    else Some (false, left).
  (** linear_combination.h:227-245 GetVarLocation. *)
  Definition get_var_location (l : lc) (v : var) : option (bool * nat) :=
    if Nat.ltb (length l) 6 then Some (scan_location l v 0) else binary_search (length l) l v 0 (length l) (length l).
  (** linear_combination.h:102-110 operator+=(Term). *)
  Definition add_term (l : lc) (t : term) : option lc :=
    match get_var_location l (snd t) with
    | None => None
    | Some (true, i) => match nth_error l i with None => None | Some u => Some (set_at l i (fst u + fst t, snd u)) end
    | Some (false, i) => Some (firstn i l ++ t :: skipn i l)
    end.
  (** term.h:35 operator-, linear_combination.h:112-118 operator-=(Term). *)
  Definition neg_term (t : term) : term := (- fst t, snd t).
  Definition sub_term (l : lc) (t : term) : option lc := add_term l (neg_term t).
  (** linear_combination.h:152-161 operator-. *)
  Definition neg_lc (l : lc) : lc := map neg_term l.
  (** linear_combination.h:279-329 DoAddition; [neg] is NEGATION. *)
  Fixpoint do_addition (neg : bool) (l : lc) : lc -> lc :=
    fix go (r : lc) : lc :=
      match l, r with
      | [], [] => []
      | [], u :: r' => (if neg then neg_term u else u) :: go r'
      | t :: l', [] => t :: do_addition neg l' []
      | t :: l', u :: r' =>
          if var_ltb (snd t) (snd u) then t :: do_addition neg l' r
          else if var_gtb (snd t) (snd u) then (if neg then neg_term u else u) :: go r'
          else ((if neg then fst t - fst u else fst t + fst u), snd t) :: do_addition neg l' r'
      end.
  (** linear_combination.h:163-195 operator+ and operator- on linear combinations. *)
  Definition add_lc (l r : lc) : lc := match l, r with [], _ => r | _, [] => l | _, _ => do_addition false l r end.
  Definition sub_lc (l r : lc) : lc := match l, r with [], _ => neg_lc r | _, [] => l | _, _ => do_addition true l r end.
  (** linear_combination.h:199-209 operator*(F), term.h:41-47. *)
  Definition scale_lc (l : lc) (c : K) : lc := map (fun t => (fst t * c, snd t)) l.

  (** constraint_system.h:469-495: the members; [goal_weight] is optimization_goal_ == kWeight. lc_map_ is the list of its
      entries in the order of their keys. lc_assignment_cache_ is left to [cached] below. *)
  Record cs := mk_cs {
    setup : bool; construct : bool; goal_weight : bool;
    n_inst : nat; n_wit : nat; n_con : nat; n_lc : nat;
    inst : list K; wit : list K;
    lc_map : list (nat * lc);
    a_con : list nat; b_con : list nat; c_con : list nat }.
  (** constraint_system.h:469-487: the initial values; 54 set_mode and 62-70 set_optimization_goal, called on a fresh system. *)
  Definition new_cs (setup construct goal_weight : bool) : cs :=
    mk_cs setup construct goal_weight 1 0 0 0 [1] [] [] [] [] [].
  (** synthesis_mode.h:32-35 ShouldConstructMatrices. *)
  Definition should_construct (s : cs) : bool := if setup s then true else construct s.

  (** absl::btree_map: find, erase and assignment to a key that is larger than every key present. *)
  Fixpoint find_lc (m : list (nat * lc)) (k : nat) : option lc :=
    match m with [] => None | (j, l) :: r => if Nat.eqb j k then Some l else find_lc r k end.
  Definition erase_lc (m : list (nat * lc)) (k : nat) : list (nat * lc) := filter (fun e => negb (Nat.eqb (fst e) k)) m.

  (** constraint_system.h:98-103 CreateInstanceVariable; [v] is what the callback returns. *)
  Definition create_instance (s : cs) (v : K) : cs * var :=
    (mk_cs (setup s) (construct s) (goal_weight s) (S (n_inst s)) (n_wit s) (n_con s) (n_lc s)
       (if setup s then inst s else inst s ++ [v]) (wit s) (lc_map s) (a_con s) (b_con s) (c_con s), VInst (n_inst s)).
  (** constraint_system.h:106-111 CreateWitnessVariable. *)
  Definition create_witness (s : cs) (v : K) : cs * var :=
    (mk_cs (setup s) (construct s) (goal_weight s) (n_inst s) (S (n_wit s)) (n_con s) (n_lc s)
       (inst s) (if setup s then wit s else wit s ++ [v]) (lc_map s) (a_con s) (b_con s) (c_con s), VWit (n_wit s)).
  (** constraint_system.h:114-126 CreateLinearCombination. *)
  Definition create_lc (s : cs) (l : lc) : cs * var :=
    (mk_cs (setup s) (construct s) (goal_weight s) (n_inst s) (n_wit s) (n_con s) (S (n_lc s))
       (inst s) (wit s) (lc_map s ++ [(n_lc s, l)]) (a_con s) (b_con s) (c_con s), VLc (n_lc s)).
  (** constraint_system.h:130-158 EnforceConstraint. *)
  Definition enforce (s : cs) (a b c : lc) : option cs :=
    if should_construct s then
      let (s1, va) := create_lc s a in
      let (s2, vb) := create_lc s1 b in
      let (s3, vc) := create_lc s2 c in
      Some (mk_cs (setup s3) (construct s3) (goal_weight s3) (n_inst s3) (n_wit s3) (S (n_con s3)) (n_lc s3) (inst s3) (wit s3) (lc_map s3)
              (a_con s3 ++ [var_index va]) (b_con s3 ++ [var_index vb]) (c_con s3 ++ [var_index vc]))
    else None.

  (** constraint_system.h:399-429, 457-463 EvalLinearCombination, GetAssignedValue, DoEvalLinearCombination without the cache;
      [fuel] bounds the depth of the nesting of linear combinations. *)
  Fixpoint assigned (fuel : nat) (inst wit : list K) (m : list (nat * lc)) (v : var) : option K :=
    match v with
    | VZero => Some 0
    | VOne => Some 1
    | VInst i => nth_error inst i
    | VWit i => nth_error wit i
    | VLc i =>
        match fuel with
        | O => None
        | S f =>
            match find_lc m i with
            | None => None
            | Some l => fold_left (fun acc t => match acc, assigned f inst wit m (snd t) with
                                                 | Some a, Some x => Some (a + fst t * x)
                                                 | _, _ => None
                                                 end) l (Some 0)
            end
        end
    end.
  Definition eval_terms (fuel : nat) (inst wit : list K) (m : list (nat * lc)) (l : lc) : option K :=
    fold_left (fun acc t => match acc, assigned fuel inst wit m (snd t) with
                            | Some a, Some x => Some (a + fst t * x)
                            | _, _ => None
                            end) l (Some 0).
  Definition eval_index (s : cs) (i : nat) : option K := assigned (S (n_lc s)) (inst s) (wit s) (lc_map s) (VLc i).

  (** constraint_system.h:407-429 GetAssignedValue with lc_assignment_cache_, which it reads and extends. *)
  Definition cache_t : Type := list (nat * K).
  Fixpoint find_value (c : cache_t) (k : nat) : option K :=
    match c with [] => None | (j, x) :: r => if Nat.eqb j k then Some x else find_value r k end.
  Fixpoint cached (fuel : nat) (inst wit : list K) (m : list (nat * lc)) (c : cache_t) (v : var) : option (K * cache_t) :=
    match v with
    | VZero => Some (0, c)
    | VOne => Some (1, c)
    | VInst i => option_map (fun x => (x, c)) (nth_error inst i)
    | VWit i => option_map (fun x => (x, c)) (nth_error wit i)
    | VLc i =>
        match find_value c i with
        | Some x => Some (x, c)
        | None =>
            match fuel with
            | O => None
            | S f =>
                match find_lc m i with
                | None => None
                | Some l =>
                    match fold_left (fun acc t => match acc with
                                                  | Some (a, c') => match cached f inst wit m c' (snd t) with
                                                                    | Some (x, c'') => Some (a + fst t * x, c'')
                                                                    | None => None
                                                                    end
                                                  | None => None
                                                  end) l (Some (0, c)) with
                    | Some (x, c') => Some (x, (i, x) :: c')
                    | None => None
                    end
                end
            end
        end
    end.

  (** constraint_system.h:433-445 IsSatisfied. *)
  Fixpoint check_rows (s : cs) (i n : nat) : option bool :=
    match n with
    | O => Some true
    | S n' =>
        match nth_error (a_con s) i, nth_error (b_con s) i, nth_error (c_con s) i with
        | Some ia, Some ib, Some ic =>
            match eval_index s ia, eval_index s ib, eval_index s ic with
            | Some a, Some b, Some c => if feqb (a * b) c then check_rows s (S i) n' else Some false
            | _, _, _ => None
            end
        | _, _, _ => None
        end
    end.
  Definition is_satisfied (s : cs) : option bool := if setup s then Some false else check_rows s 0 (n_con s).

  (** constraint_system.h:161-177 ComputeLCNumTimesUsed; every access is checked against the size of the vector. *)
  Definition bump (l : list nat) (i d : nat) : option (list nat) :=
    match nth_error l i with None => None | Some x => Some (set_at l i (x + d)%nat) end.
  Fixpoint bump_terms (used : list nat) (l : lc) : option (list nat) :=
    match l with
    | [] => Some used
    | t :: r => match snd t with
                | VLc i => match bump used i 1 with None => None | Some u => bump_terms u r end
                | _ => bump_terms used r
                end
    end.
  Fixpoint times_used (sinks : bool) (m : list (nat * lc)) (used : list nat) : option (list nat) :=
    match m with
    | [] => Some used
    | (k, l) :: r => match bump used k (if sinks then 1 else 0) with
                     | None => None
                     | Some u => match bump_terms u l with None => None | Some u' => times_used sinks r u' end
                     end
    end.
  Definition compute_times_used (sinks : bool) (m : list (nat * lc)) : option (list nat) := times_used sinks m (repeat 0%nat (length m)).

  (** constraint_system.h:191-233: the terms of one entry. [out] is transformed_lc, [m] transformed_lc_map. *)
  Fixpoint inline_terms (l : lc) (out : lc) (m : list (nat * lc)) (used : list nat) : option (lc * list (nat * lc) * list nat) :=
    match l with
    | [] => Some (out, m, used)
    | t :: r =>
        match snd t with
        | VLc i =>
            match find_lc m i with
            | None => None
            | Some e =>
                match nth_error used i with
                | None => None
                | Some n =>
                    inline_terms r (out ++ scale_lc e (fst t)) (if Nat.eqb (n - 1) 0 then erase_lc m i else m) (set_at used i (n - 1)%nat)
                end
            end
        | _ => inline_terms r (out ++ [t]) m used
        end
    end.
  (** The state of the loop of TransformLCMap and of the callback of OutlineLCs: [t_new] pairs new_witness_linear_combinations with
      new_witness_indices. *)
  Record tstate := mk_t { t_map : list (nat * lc); t_used : list nat; t_nwit : nat; t_wit : list K; t_new : list (lc * nat) }.
  (** constraint_system.h:313-323: the cost comparison. [times] + 1 uses. *)
  Definition worthwhile (times len : nat) : bool := Nat.ltb (times + 1 + len + 2) (len * (times + 1)).
  (** constraint_system.h:190-252 the body of the loop of TransformLCMap, with the callback of InlineAllLCs (272-274) or, if [outline],
      that of OutlineLCs (306-354). *)
  Definition transform_entry (sort : lc -> lc) (outline setup : bool) (inst : list K) (old : list (nat * lc)) (st : tstate) (e : nat * lc) : option tstate :=
    match inline_terms (snd e) [] (t_map st) (t_used st) with
    | None => None
    | Some (out, m, used) =>
        let l := deduplicate sort out in
        match nth_error used (fst e) with
        | None => None
        | Some times =>
            if outline && worthwhile times (length l) then
              match (if setup then Some [] else option_map (fun x => [x]) (eval_terms 1 inst (t_wit st) old l)) with
              | None => None
              | Some values =>
                  Some (mk_t (m ++ [(fst e, [(1, VWit (t_nwit st))])]) used (S (t_nwit st)) (t_wit st ++ values) (t_new st ++ [(l, t_nwit st)]))
              end
            else Some (mk_t (m ++ [(fst e, l)]) used (t_nwit st) (t_wit st) (t_new st))
        end
    end.
  Fixpoint transform_loop (sort : lc -> lc) (outline setup : bool) (inst : list K) (old todo : list (nat * lc)) (st : tstate) : option tstate :=
    match todo with
    | [] => Some st
    | e :: r => match transform_entry sort outline setup inst old st e with None => None | Some st' => transform_loop sort outline setup inst old r st' end
    end.
  (** constraint_system.h:356-361: a constraint for each new witness. *)
  Fixpoint enforce_new (s : cs) (new : list (lc * nat)) : option cs :=
    match new with
    | [] => Some s
    | (l, w) :: r => match enforce s l [(1, VOne)] [(1, VWit w)] with None => None | Some s' => enforce_new s' r end
    end.
  (** constraint_system.h:183-254, 265-275, 286-362, 366-376 TransformLCMap, InlineAllLCs, OutlineLCs, Finalize. *)
  Definition finalize (sort : lc -> lc) (s : cs) : option cs :=
    if should_construct s then
      match compute_times_used false (lc_map s) with
      | None => None
      | Some used =>
          match transform_loop sort (goal_weight s) (setup s) (inst s) (lc_map s) (lc_map s) (mk_t [] used (n_wit s) (wit s) []) with
          | None => None
          | Some st =>
              enforce_new (mk_cs (setup s) (construct s) (goal_weight s) (n_inst s) (t_nwit st) (n_con s) (n_lc s) (inst s) (t_wit st) (t_map st)
                                 (a_con s) (b_con s) (c_con s)) (t_new st)
          end
      end
    else Some s.

  (** matrix.h:26-28 Cell: a coefficient and a column. constraint_system.h:78-87 MakeRow. *)
  Definition cell : Type := K * nat.
  Fixpoint make_row (offset : nat) (l : lc) : option (list cell) :=
    match l with
    | [] => Some []
    | t :: r =>
        if feqb (fst t) 0 then make_row offset r
        else match get_index offset (snd t), make_row offset r with
             | Some i, Some row => Some ((fst t, i) :: row)
             | _, _ => None
             end
    end.
  (** constraint_system.h:450-455 MakeMatrix. *)
  Fixpoint make_matrix (offset : nat) (m : list (nat * lc)) (constraints : list nat) : option (list (list cell)) :=
    match constraints with
    | [] => Some []
    | k :: r => match find_lc m k with
                | None => None
                | Some l => match make_row offset l, make_matrix offset m r with
                            | Some row, Some rows => Some (row :: rows)
                            | _, _ => None
                            end
                end
    end.
  (** constraint_matrices.h:26-47 ConstraintMatrices without the counts of the non-zero entries. *)
  Record matrices := mk_matrices { m_inst : nat; m_wit : nat; m_con : nat; m_a : list (list cell); m_b : list (list cell); m_c : list (list cell) }.
  (** constraint_system.h:381-396 ToMatrices; [Some None] is nullopt. *)
  Definition to_matrices (s : cs) : option (option matrices) :=
    if should_construct s then
      match make_matrix (n_inst s) (lc_map s) (a_con s), make_matrix (n_inst s) (lc_map s) (b_con s), make_matrix (n_inst s) (lc_map s) (c_con s) with
      | Some a, Some b, Some c => Some (Some (mk_matrices (n_inst s) (n_wit s) (n_con s) a b c))
      | _, _, _ => None
      end
    else Some None.
End R1cs.
Arguments term K : clear implicits.
Arguments lc K : clear implicits.
Arguments cs K : clear implicits.
Arguments cell K : clear implicits.
Arguments tstate K : clear implicits.
Arguments matrices K : clear implicits.
