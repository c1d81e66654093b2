(** Model of zk/plonk/layout: the floor planners (floor_planner/*.h, floor_planner/v1/*.{h,cc}), region_shape.h, plan_region.h.
    Only definitions. The lookup tables are in TableModel.v.
    Simplifications: names, logging, namespaces and challenges are left out; a region is the list of the calls its callback makes
    (the same in both passes); the phase of an advice column is a function of its index; a hash map is an association list in which
    an absent column stands for an empty entry; the Assignment receives a list of events. RowIndex is uint32_t. *)
From Coq Require Import ZArith List Bool Arith.
From Verif Require Import BigIntModel BufferModel.
Import ListNotations.
Open Scope Z_scope.

(** region_column.h RegionColumn, base/column_key.h AnyColumnKey. *)
Inductive column := Instance (i : nat) | Advice (i : nat) | Fixed (i : nat) | Selector (i : nat).
(** region_column.h:40-44, column_key.h:153-159 operator==. *)
Definition column_eqb (a b : column) : bool :=
  match a, b with
  | Instance i, Instance j | Advice i, Advice j | Fixed i, Fixed j | Selector i, Selector j => Nat.eqb i j
  | _, _ => false
  end.
(** region_column.h:49-56, column_key.h:167-182 operator<; [phase] gives the phase of an advice column. *)
Definition type_rank (a : column) : nat := match a with Instance _ => 1 | Advice _ => 2 | Fixed _ => 3 | Selector _ => 4 end.
Definition column_ltb (phase : nat -> nat) (a b : column) : bool :=
  match a, b with
  | Selector i, Selector j => Nat.ltb i j
  | Selector _, _ => false
  | _, Selector _ => true
  | Advice i, Advice j => Nat.ltb (phase i) (phase j)
  | Instance _, Instance _ | Fixed _, Fixed _ => false
  | _, _ => Nat.ltb (type_rank a) (type_rank b)
  end.

(** flat_hash_map<RegionColumn, T> with [d] the value of a new entry. *)
Definition get {T} (d : T) (m : list (column * T)) (c : column) : T :=
  match find (fun e => column_eqb (fst e) c) m with Some e => snd e | None => d end.
Definition put {T} (m : list (column * T)) (c : column) (t : T) : list (column * T) :=
  (c, t) :: filter (fun e => negb (column_eqb (fst e) c)) m.

(** allocated_region.h:16-31: (start, length). *)
Definition a_end (a : Z * Z) : Z := trunc 32 (fst a + snd a).
(** btree_set::insert of an AllocatedRegion: ordered by start, no effect if the start is present. *)
Fixpoint a_insert (a : Z * Z) (l : list (Z * Z)) : list (Z * Z) :=
  match l with
  | [] => [a]
  | b :: r => if fst a <? fst b then a :: l else if fst b <? fst a then b :: a_insert a r else l
  end.
(** allocations.h:30-35 UnboundedIntervalStart. *)
Definition unbounded_start (l : list (Z * Z)) : Z := match rev l with [] => 0 | a :: _ => a_end a end.
(** allocations.h:39-58 FreeIntervals. *)
Fixpoint free_from (l : list (Z * Z)) (row : Z) (fin : option Z) : list (Z * option Z) :=
  let rest := if match fin with None => true | Some e => row <? e end then [(row, fin)] else [] in
  match l with
  | [] => rest
  | a :: r =>
      if match fin with Some e => e <=? fst a | None => false end then rest
      else (if row <? fst a then [(row, Some (fst a))] else []) ++ free_from r (Z.max row (a_end a)) fin
  end.
Definition free_intervals (l : list (Z * Z)) (start : Z) (fin : option Z) : list (Z * option Z) := free_from l start fin.

Definition circuit := list (column * list (Z * Z)).
Definition allocs (ca : circuit) (c : column) : list (Z * Z) := get [] ca c.

(** What FirstFitRegion can do: a row, no row, a failed CHECK. *)
Inductive fit := Fit (row : Z) (ca : circuit) | NoFit | Crash.

(** v1_strategy.cc:34-58: the loop over the empty spaces; [rec] is the call for the remaining columns. *)
Fixpoint try_spaces (rec : Z -> option Z -> fit) (c : column) (len : Z) (slack fin : option Z) (spaces : list (Z * option Z)) : fit :=
  match spaces with
  | [] => NoFit
  | (s, e) :: more =>
      let s_slack := option_map (fun e => to_int32 (e - s - len)) e in
      if match slack, s_slack with Some a, Some b => a <? b | _, _ => false end then Crash
      else if match s_slack with None => true | Some b => 0 <=? b end then
        match rec s s_slack with
        | Crash => Crash
        | NoFit => try_spaces rec c len slack fin more
        | Fit row ca =>
            if match fin with Some f => f <? trunc 32 (row + len) | None => false end then Crash
            else Fit row (put ca c (a_insert (row, len) (allocs ca c)))
        end
      else try_spaces rec c len slack fin more
  end.
(** v1_strategy.cc:16-63 FirstFitRegion. *)
Fixpoint first_fit (ca : circuit) (cols : list column) (len start : Z) (slack : option Z) : fit :=
  match cols with
  | [] => Fit start ca
  | c :: remaining =>
      let fin := option_map (fun s => trunc 32 (trunc 32 (start + len) + s)) slack in
      try_spaces (first_fit ca remaining len) c len slack fin (free_intervals (allocs ca c) start fin)
  end.

(** region_shape.h:17-77. *)
Record shape := mk_shape { sh_index : nat; sh_columns : list column; sh_rows : Z }.

(** v1_strategy.h:56-91 SlotIn: the regions with their starts, in the order given. [arrange i] is the order in which the hash set of
    region i and the sort after it give its columns. None is a failed CHECK. *)
Fixpoint slot_in (arrange : nat -> list column -> list column) (ca : circuit) (shapes : list shape) : option (list (Z * shape) * circuit) :=
  match shapes with
  | [] => Some ([], ca)
  | sh :: rest =>
      match first_fit ca (arrange (sh_index sh) (sh_columns sh)) (sh_rows sh) 0 None with
      | Fit row ca' =>
          match slot_in arrange ca' rest with
          | Some (l, ca'') => Some ((row, sh) :: l, ca'')
          | None => None
          end
      | _ => None
      end
  end.

(** v1_strategy.h:110-132: the key of the first sort. *)
Definition advice_area (sh : shape) : Z :=
  Z.of_nat (length (filter (fun c => match c with Advice _ => true | _ => false end) (sh_columns sh))) * sh_rows sh.
(** v1_strategy.h:100-148 SlotInBiggestAdviceFirst: [sort1] is UnstableSort by advice_area, [sort2] UnstableSort by region_index. *)
Definition slot_in_biggest_advice_first (arrange : nat -> list column -> list column) (sort1 : list shape -> list shape)
  (sort2 : list (Z * shape) -> list (Z * shape)) (shapes : list shape) : option (list Z * circuit) :=
  match slot_in arrange [] (rev (sort1 shapes)) with
  | Some (l, ca) => Some (map fst (sort2 l), ca)
  | None => None
  end.

Section Calls.
  Context {V : Type}.

  (** cell.h. *)
  Record cell := mk_cell { cl_region : nat; cl_offset : Z; cl_column : column }.

  (** region.h: the calls a region's callback makes. AssignAdviceFromInstance carries the value that QueryInstance returns. *)
  Inductive call :=
  | EnableSelector (s : nat) (offset : Z)
  | AssignAdvice (c : nat) (offset : Z) (v : V)
  | AssignAdviceFromConstant (c : nat) (offset : Z) (v : V)
  | AssignAdviceFromInstance (instance : nat) (row : Z) (c : nat) (offset : Z) (v : V)
  | AssignFixed (c : nat) (offset : Z) (v : V)
  | ConstrainConstant (x : cell) (v : V)
  | ConstrainEqual (left right : cell).

  (** assignment.h: what reaches the Assignment. *)
  Inductive event :=
  | EvSelector (s : nat) (row : Z)
  | EvAdvice (c : nat) (row : Z) (v : V)
  | EvFixed (c : nat) (row : Z) (v : V)
  | EvCopy (left : column) (left_row : Z) (right : column) (right_row : Z).

  (** region_shape.h:30-66: the column and offset that each call records; NameColumn, ConstrainConstant, ConstrainEqual are the empty
      methods of region_layouter.h. *)
  Definition touched (k : call) : option (column * Z) :=
    match k with
    | EnableSelector s o => Some (Selector s, o)
    | AssignAdvice c o _ | AssignAdviceFromConstant c o _ | AssignAdviceFromInstance _ _ c o _ => Some (Advice c, o)
    | AssignFixed c o _ => Some (Fixed c, o)
    | ConstrainConstant _ _ | ConstrainEqual _ _ => None
    end.
  (** region_shape.h:68-71 UpdateColumnsAndRowCount. *)
  Definition update (sh : shape) (k : call) : shape :=
    match touched k with
    | None => sh
    | Some (c, o) =>
        mk_shape (sh_index sh) (if existsb (column_eqb c) (sh_columns sh) then sh_columns sh else sh_columns sh ++ [c])
                 (Z.max (sh_rows sh) (trunc 32 (o + 1)))
    end.
  Definition measure (index : nat) (calls : list call) : shape := fold_left update calls (mk_shape index [] 0).

  (** regions_[cell.region_index()] + cell.row_offset(). None: out of range. *)
  Definition row_of (regions : list Z) (region : nat) (offset : Z) : option Z :=
    option_map (fun s => trunc 32 (s + offset)) (nth_error regions region).
  Definition copy (regions : list Z) (left right : cell) : option event :=
    match row_of regions (cl_region left) (cl_offset left), row_of regions (cl_region right) (cl_offset right) with
    | Some a, Some b => Some (EvCopy (cl_column left) a (cl_column right) b)
    | _, _ => None
    end.

  (** plan_region.h:35-100 PlanRegion: the events of one call and the constants it adds. *)
  Definition plan_call (regions : list Z) (index : nat) (k : call) : option (list event * list (V * cell)) :=
    match k with
    | EnableSelector s o => option_map (fun r => ([EvSelector s r], [])) (row_of regions index o)
    | AssignAdvice c o v => option_map (fun r => ([EvAdvice c r v], [])) (row_of regions index o)
    | AssignAdviceFromConstant c o v =>
        option_map (fun r => ([EvAdvice c r v], [(v, mk_cell index o (Advice c))])) (row_of regions index o)
    | AssignAdviceFromInstance i row c o v =>
        option_map (fun r => ([EvAdvice c r v; EvCopy (Advice c) r (Instance i) row], [])) (row_of regions index o)
    | AssignFixed c o v => option_map (fun r => ([EvFixed c r v], [])) (row_of regions index o)
    | ConstrainConstant x v => Some ([], [(v, x)])
    | ConstrainEqual l r => option_map (fun e => ([e], [])) (copy regions l r)
    end.
  Fixpoint plan_region (regions : list Z) (index : nat) (calls : list call) : option (list event * list (V * cell)) :=
    match calls with
    | [] => Some ([], [])
    | k :: r =>
        match plan_call regions index k, plan_region regions index r with
        | Some (e1, c1), Some (e2, c2) => Some (e1 ++ e2, c1 ++ c2)
        | _, _ => None
        end
    end.

  (** single_chip_layouter.h:27-165: regions_, columns_ and what the Assignment has received. *)
  Record chip := mk_chip { ch_regions : list Z; ch_columns : list (column * Z); ch_events : list event }.

  (** single_chip_layouter.h:114-127: the constants of a region, from row [next] of the first constants column. *)
  Fixpoint assign_constants (regions : list Z) (column : nat) (next : Z) (constants : list (V * cell)) : option (list event * Z) :=
    match constants with
    | [] => Some ([], next)
    | (v, x) :: r =>
        match row_of regions (cl_region x) (cl_offset x), assign_constants regions column (trunc 32 (next + 1)) r with
        | Some row, Some (e, n) => Some (EvFixed column next v :: EvCopy (Fixed column) next (cl_column x) row :: e, n)
        | _, _ => None
        end
    end.

  (** single_chip_layouter.h:47-129 AssignRegion. *)
  Definition chip_assign_region (constants : list nat) (st : chip) (calls : list call) : option chip :=
    let index := length (ch_regions st) in
    let sh := measure index calls in
    let region_start := fold_left (fun s c => Z.max s (get 0 (ch_columns st) c)) (sh_columns sh) 0 in
    let regions := ch_regions st ++ [region_start] in
    let columns := fold_left (fun m c => put m c (trunc 32 (region_start + sh_rows sh))) (sh_columns sh) (ch_columns st) in
    match plan_region regions index calls with
    | None => None
    | Some (events, cs) =>
        match constants with
        | [] => match cs with [] => Some (mk_chip regions columns (ch_events st ++ events)) | _ => None end
        | cc :: _ =>
            match assign_constants regions cc (get 0 columns (Fixed cc)) cs with
            | None => None
            | Some (e, n) => Some (mk_chip regions (put columns (Fixed cc) n) (ch_events st ++ events ++ e))
            end
        end
    end.
  (** A circuit whose Synthesize calls AssignRegion once for every element of [prog]. *)
  Fixpoint chip_run (constants : list nat) (st : chip) (prog : list (list call)) : option chip :=
    match prog with
    | [] => Some st
    | calls :: r => match chip_assign_region constants st calls with Some st' => chip_run constants st' r | None => None end
    end.
  Definition simple_synthesize (constants : list nat) (prog : list (list call)) : option chip := chip_run constants (mk_chip [] [] []) prog.

  (** measurement_pass.h:37-47. *)
  Definition measure_all (prog : list (list call)) : list shape := map (fun x => measure (fst x) (snd x)) (combine (seq 0 (length prog)) prog).

  (** v1_floor_planner.h:64-73. *)
  Definition first_unassigned_row (ca : circuit) : Z := fold_left (fun m e => Z.max m (unbounded_start (snd e))) ca 0.
  (** v1_floor_planner.h:76-96: a Range enumerates its rows. *)
  Definition rows_of (s : Z * option Z) : list Z :=
    match snd s with None => [] | Some e => map (fun i => fst s + Z.of_nat i) (seq 0 (Z.to_nat (e - fst s))) end.
  Definition constant_positions (ca : circuit) (constants : list nat) : list (nat * Z) :=
    flat_map (fun c => map (pair c) (flat_map rows_of (free_intervals (allocs ca (Fixed c)) 0 (Some (first_unassigned_row ca))))) constants.

  (** assignment_pass.h:36-42 for the regions from [index] on. *)
  Fixpoint assignment_pass (regions : list Z) (index : nat) (prog : list (list call)) : option (list event * list (V * cell)) :=
    match prog with
    | [] => Some ([], [])
    | calls :: r =>
        match plan_region regions index calls, assignment_pass regions (S index) r with
        | Some (e1, c1), Some (e2, c2) => Some (e1 ++ e2, c1 ++ c2)
        | _, _ => None
        end
    end.
  (** v1_floor_planner.h:109-127. *)
  Fixpoint place_constants (regions : list Z) (positions : list (nat * Z)) (constants : list (V * cell)) : option (list event) :=
    match positions, constants with
    | (c, row) :: ps, (v, x) :: cs =>
        match row_of regions (cl_region x) (cl_offset x), place_constants regions ps cs with
        | Some r, Some e => Some (EvFixed c row v :: EvCopy (Fixed c) row (cl_column x) r :: e)
        | _, _ => None
        end
    | _, _ => Some []
    end.
  (** v1_floor_planner.h:39-129 Synthesize: the starts of the regions and the events; None is a failed CHECK or an index out of range. *)
  Definition v1_synthesize (arrange : nat -> list column -> list column) (sort1 : list shape -> list shape)
    (sort2 : list (Z * shape) -> list (Z * shape)) (constants : list nat) (prog : list (list call)) : option (list Z * list event) :=
    match slot_in_biggest_advice_first arrange sort1 sort2 (measure_all prog) with
    | None => None
    | Some (regions, ca) =>
        let positions := constant_positions ca constants in
        match assignment_pass regions 0 prog with
        | None => None
        | Some (e, cs) =>
            if (length positions <? length cs)%nat then None
            else option_map (fun e' => (regions, e ++ e')) (place_constants regions positions cs)
        end
    end.
End Calls.
Arguments call : clear implicits.
Arguments event : clear implicits.
Arguments chip : clear implicits.
