(** What the floor planners promise, without their algorithms. *)
From Coq Require Import ZArith List Bool Sorted Permutation.
From Verif Require Import BigIntModel LayoutModel.
Import ListNotations.
Open Scope Z_scope.

(** The rows that a list of (start, length) intervals covers. *)
Definition busy (l : list (Z * Z)) (r : Z) : Prop := exists s n, In (s, n) l /\ s <= r < s + n.

(** Intervals that allocations() can hold: non-negative, non-empty, increasing, all ends at most [top]. *)
Definition well_formed (l : list (Z * Z)) (top : Z) : Prop :=
  StronglySorted (fun a b => fst a < fst b) l /\ forall s n, In (s, n) l -> 0 <= s /\ 0 < n /\ s + n <= top.

(** The rows of an interval whose end may be open. *)
Definition inside (i : Z * option Z) (r : Z) : Prop := fst i <= r /\ match snd i with None => True | Some e => r < e end.

(** [r] can be the first row of a region of [len] rows in the columns [cols]. *)
Definition room (ca : circuit) (cols : list column) (len r : Z) : Prop :=
  forall c x, In c cols -> r <= x < r + len -> ~ busy (allocs ca c) x.

(** Two regions, given with their starts, never share a cell. *)
Definition apart (a b : Z * shape) : Prop :=
  forall c, In c (sh_columns (snd a)) -> In c (sh_columns (snd b)) ->
  fst a + sh_rows (snd a) <= fst b \/ fst b + sh_rows (snd b) <= fst a.

(** [r] is the earliest start at which the region does not meet those placed before. *)
Definition earliest (placed : list (Z * shape)) (sh : shape) (r : Z) : Prop :=
  0 <= r /\ (forall q, In q placed -> apart (r, sh) q) /\
  forall r', 0 <= r' -> (forall q, In q placed -> apart (r', sh) q) -> r <= r'.
(** Every region of the list is placed at its earliest start after the ones before it. *)
Definition greedy (l : list (Z * shape)) : Prop :=
  forall before q after, l = before ++ q :: after -> earliest before (snd q) (fst q).

(** A shape as a circuit makes it: a set of columns; no rows exactly if there are no columns. *)
Definition proper (sh : shape) : Prop := NoDup (sh_columns sh) /\ 0 <= sh_rows sh /\ (sh_columns sh <> [] -> 0 < sh_rows sh).
Definition total_rows (l : list shape) : Z := fold_right (fun sh n => sh_rows sh + n) 0 l.

Section Writes.
  Context {V : Type}.

  (** What a call writes, by offset in the region, and what an event writes, by row. A selector is enabled: no value. *)
  Definition call_write (k : call V) : option (column * Z * option V) :=
    match k with
    | EnableSelector s o => Some (Selector s, o, None)
    | AssignAdvice c o v | AssignAdviceFromConstant c o v | AssignAdviceFromInstance _ _ c o v => Some (Advice c, o, Some v)
    | AssignFixed c o v => Some (Fixed c, o, Some v)
    | ConstrainConstant _ _ | ConstrainEqual _ _ => None
    end.
  Definition event_write (e : event V) : option (column * Z * option V) :=
    match e with
    | EvSelector s r => Some (Selector s, r, None)
    | EvAdvice c r v => Some (Advice c, r, Some v)
    | EvFixed c r v => Some (Fixed c, r, Some v)
    | EvCopy _ _ _ _ => None
    end.
  (** What (c, r) holds after a sequence of writes: the last one to it. *)
  Fixpoint holds {X} (w : X -> option (column * Z * option V)) (l : list X) (c : column) (r : Z) : option (option V) :=
    match l with
    | [] => None
    | x :: l' =>
        match holds w l' c r with
        | Some v => Some v
        | None => match w x with
                  | Some (c', r', v) => if column_eqb c' c && (r' =? r) then Some v else None
                  | None => None
                  end
        end
    end.

  (** The cell that (region, offset) becomes. *)
  Definition at_row (starts : list Z) (region : nat) (offset row : Z) : Prop :=
    exists s, nth_error starts region = Some s /\ row = s + offset.

  (** The circuit's table holds, for every region, what the region wrote. *)
  Definition regions_kept (prog : list (list (call V))) (starts : list Z) (events : list (event V)) : Prop :=
    forall i calls c o v, nth_error prog i = Some calls -> holds call_write calls c o = Some v ->
    exists row, at_row starts i o row /\ holds event_write events c row = Some v.

  (** The constants that region [i] asks for, with their cells. *)
  Definition call_constants (i : nat) (k : call V) : list (V * cell) :=
    match k with
    | AssignAdviceFromConstant c o v => [(v, mk_cell i o (Advice c))]
    | ConstrainConstant x v => [(v, x)]
    | _ => []
    end.
  (** Every constant is held by a cell of a constants column and copied to the cell that asked for it. *)
  Definition constants_kept (constants : list nat) (prog : list (list (call V))) (starts : list Z) (events : list (event V)) : Prop :=
    forall i calls k v x, nth_error prog i = Some calls -> In k calls -> In (v, x) (call_constants i k) ->
    exists cc r row, In cc constants /\ holds event_write events (Fixed cc) r = Some (Some v) /\
      at_row starts (cl_region x) (cl_offset x) row /\ In (EvCopy (Fixed cc) r (cl_column x) row) events.

  (** Every equality that region [i] asks for is passed on with absolute rows. *)
  Definition copies_kept (prog : list (list (call V))) (starts : list Z) (events : list (event V)) : Prop :=
    forall i calls, nth_error prog i = Some calls ->
    (forall l r, In (ConstrainEqual l r) calls -> exists a b, at_row starts (cl_region l) (cl_offset l) a /\
       at_row starts (cl_region r) (cl_offset r) b /\ In (EvCopy (cl_column l) a (cl_column r) b) events) /\
    (forall inst row c o v, In (AssignAdviceFromInstance inst row c o v) calls -> exists a, at_row starts i o a /\
       In (EvCopy (Advice c) a (Instance inst) row) events).

  (** The number of rows that a region needs. *)
  Definition rows_needed (calls : list (call V)) : Z :=
    fold_right (fun k m => match call_write k with Some (_, o, _) => Z.max (o + 1) m | None => m end) 0 calls.
  (** Offsets are non-negative; a cell belongs to one of the first [n] regions and lies within it. *)
  Definition cell_ok (prog : list (list (call V))) (n : nat) (x : cell) : Prop :=
    (cl_region x < n)%nat /\ exists calls, nth_error prog (cl_region x) = Some calls /\ 0 <= cl_offset x < rows_needed calls.
  Definition call_ok (prog : list (list (call V))) (n : nat) (k : call V) : Prop :=
    match k with
    | EnableSelector _ o | AssignAdvice _ o _ | AssignAdviceFromConstant _ o _ | AssignAdviceFromInstance _ _ _ o _ | AssignFixed _ o _ => 0 <= o
    | ConstrainConstant x _ => cell_ok prog n x
    | ConstrainEqual l r => cell_ok prog n l /\ cell_ok prog n r
    end.
  Definition total_needed (prog : list (list (call V))) : Z := fold_right (fun calls n => rows_needed calls + n) 0 prog.
  Definition constants_of (i : nat) (calls : list (call V)) : list (V * cell) := flat_map (call_constants i) calls.
  (** The number of constants in the program. *)
  Fixpoint count_constants (i : nat) (prog : list (list (call V))) : nat :=
    match prog with [] => 0 | calls :: r => length (constants_of i calls) + count_constants (S i) r end.
End Writes.

(** A sort by [key]: any result that is in order will do. *)
Definition sorts_by {A} (key : A -> Z) (sort : list A -> list A) : Prop :=
  forall l, Permutation (sort l) l /\ StronglySorted (fun a b => key a <= key b) (sort l).

Section Placement.
  Context {V : Type}.
  (** Row [r] of column [c] belongs to the rectangle of a region; some region ends below row [r]. *)
  Definition covered (prog : list (list (call V))) (starts : list Z) (c : column) (r : Z) : Prop :=
    exists i calls s, nth_error prog i = Some calls /\ nth_error starts i = Some s /\
      (exists k o v, In k calls /\ call_write k = Some (c, o, v)) /\ s <= r < s + rows_needed calls.
  Definition used (prog : list (list (call V))) (starts : list Z) (r : Z) : Prop :=
    exists i calls s, nth_error prog i = Some calls /\ nth_error starts i = Some s /\ 0 < rows_needed calls /\ r < s + rows_needed calls.
  (** The cells that can hold constants. *)
  Definition free_cells (constants : list nat) (prog : list (list (call V))) (starts : list Z) (free : list (nat * Z)) : Prop :=
    NoDup free /\ forall cc r, In (cc, r) free <-> In cc constants /\ 0 <= r /\ used prog starts r /\ ~ covered prog starts (Fixed cc) r.
  (** Nothing is written but what the regions and the constants ask for. *)
  Definition nothing_else (constants : list nat) (prog : list (list (call V))) (starts : list Z) (events : list (event V)) : Prop :=
    forall c r v, holds event_write events c r = Some v ->
    (exists i calls s, nth_error prog i = Some calls /\ nth_error starts i = Some s /\ holds call_write calls c (r - s) = Some v) \/
    (exists cc, c = Fixed cc /\ In cc constants /\ ~ covered prog starts c r).
  (** No two regions cover a cell. *)
  Definition disjoint (prog : list (list (call V))) (starts : list Z) : Prop :=
    forall i j calls calls' s s' c r, i <> j -> nth_error prog i = Some calls -> nth_error prog j = Some calls' ->
    nth_error starts i = Some s -> nth_error starts j = Some s' ->
    (exists k o v, In k calls /\ call_write k = Some (c, o, v)) -> (exists k o v, In k calls' /\ call_write k = Some (c, o, v)) ->
    ~ (s <= r < s + rows_needed calls /\ s' <= r < s' + rows_needed calls').
End Placement.
