(** Model of the copy-constraint cycles: tachyon/zk/plonk/permutation/cycle_store.h (H), cycle_store.cc (CC) and permutation_assembly.h (PA). Only definitions.
    [None] is an access outside a table, a failed CHECK, or a loop that does not end within its fuel (one turn per cell). *)
From Coq Require Import List Arith Bool.
Import ListNotations.
Open Scope nat_scope.

(** Label, label.h:20-36: column and row. *)
Definition label : Type := nat * nat.
Definition label_eqb (a b : label) : bool := (fst a =? fst b) && (snd a =? snd b).

(** CycleStore::Table, H:24-47. *)
Definition tget {A : Type} (t : list (list A)) (l : label) : option A :=
  match nth_error t (fst l) with Some col => nth_error col (snd l) | None => None end.
Fixpoint update {A : Type} (l : list A) (i : nat) (x : A) : option (list A) :=
  match l, i with
  | [], _ => None
  | _ :: r, O => Some (x :: r)
  | a :: r, S i' => match update r i' x with Some r' => Some (a :: r') | None => None end
  end.
Definition tset {A : Type} (t : list (list A)) (l : label) (x : A) : option (list (list A)) :=
  match nth_error t (fst l) with
  | Some col => match update col (snd l) x with Some col' => update t (fst l) col' | None => None end
  | None => None
  end.

Record store := mk_store { mapping : list (list label); aux : list (list label); sizes : list (list nat) }.

(** CycleStore(cols, rows), H:50-58. *)
Definition create (cols rows : nat) : store :=
  let t := map (fun col => map (fun row => (col, row)) (seq 0 rows)) (seq 0 cols) in
  mk_store t t (repeat (repeat 1 rows) cols).

(** GetNextLabel, GetCycleBase, GetCycleSize, CheckSameCycle: H:65-83. *)
Definition get_next_label (s : store) (l : label) : option label := tget (mapping s) l.
Definition get_cycle_base (s : store) (l : label) : option label := tget (aux s) l.
Definition get_cycle_size (s : store) (l : label) : option nat :=
  match get_cycle_base s l with Some b => tget (sizes s) b | None => None end.
Definition check_same_cycle (s : store) (a b : label) : option bool :=
  match get_cycle_base s a, get_cycle_base s b with Some x, Some y => Some (label_eqb x y) | _, _ => None end.

(** The while loop of MergeCycle, CC:28-34. *)
Fixpoint relabel (fuel : nat) (m ax : list (list label)) (left right l : label) : option (list (list label)) :=
  match fuel with
  | O => None
  | S fuel' =>
      match tset ax l left, tget m l with
      | Some ax', Some l' => if label_eqb l' right then Some ax' else relabel fuel' m ax' left right l'
      | _, _ => None
      end
  end.
Definition cells {A : Type} (t : list (list A)) : nat := length (concat t).

(** MergeCycle, CC:13-38. *)
Definition merge_cycle (s : store) (a b : label) : option (bool * store) :=
  match get_cycle_base s a, get_cycle_base s b with
  | Some ba, Some bb =>
      if label_eqb ba bb then Some (false, s)
      else
        match tget (sizes s) ba, tget (sizes s) bb with
        | Some na, Some nb =>
            let (left, right) := if na <? nb then (bb, ba) else (ba, bb) in
            let (nl, nr) := if na <? nb then (nb, na) else (na, nb) in
            match tset (sizes s) left (nl + nr), relabel (cells (mapping s)) (mapping s) (aux s) left right right,
                  tget (mapping s) a, tget (mapping s) b with
            | Some sz, Some ax, Some xa, Some xb =>
                match tset (mapping s) a xb with
                | Some m1 => match tset m1 b xa with Some m2 => Some (true, mk_store m2 ax sz) | None => None end
                | None => None
                end
            | _, _, _, _ => None
            end
        | _, _ => None
        end
  | _, _ => None
  end.

(** A history of MergeCycle calls; the returned booleans and the final store. *)
Fixpoint merge_all (s : store) (pairs : list (label * label)) : option (list bool * store) :=
  match pairs with
  | [] => Some ([], s)
  | (a, b) :: r => match merge_cycle s a b with
                   | Some (x, s') => match merge_all s' r with Some (xs, s'') => Some (x :: xs, s'') | None => None end
                   | None => None
                   end
  end.

(** GetAllLabels, CC:40-54. *)
Fixpoint collect (fuel : nat) (m : list (list label)) (base l : label) : option (list label) :=
  match fuel with
  | O => None
  | S fuel' => match tget m l with
               | Some l' => if label_eqb l' base then Some [l'] else match collect fuel' m base l' with Some r => Some (l' :: r) | None => None end
               | None => None
               end
  end.
Definition get_all_labels (s : store) (l : label) : option (list label) :=
  match get_cycle_base s l with
  | Some base => match collect (cells (mapping s)) (mapping s) base base with Some r => Some (base :: r) | None => None end
  | None => None
  end.

(** PermutationAssembly::Copy, PA:61-72, once the columns have been found; CHECK_LE(row, rows) is lines 63-64. *)
Definition copy (rows : nat) (s : store) (left_col left_row right_col right_row : nat) : option (bool * store) :=
  if (left_row <=? rows) && (right_row <=? rows) then merge_cycle s (left_col, left_row) (right_col, right_row) else None.

(** GeneratePermutations, PA:118-143, over the table of labels as field elements (unpermuted_table.h:62-86): permutations[i][j] = table[next (i, j)]. *)
Definition generate_permutations {A : Type} (table : list (list A)) (s : store) (cols rows : nat) : option (list (list A)) :=
  let row i := fold_right (fun j acc => match get_next_label s (i, j), acc with
                                        | Some l, Some r => match tget table l with Some x => Some (x :: r) | None => None end
                                        | _, _ => None
                                        end) (Some []) (seq 0 rows) in
  fold_right (fun i acc => match row i, acc with Some c, Some r => Some (c :: r) | _, _ => None end) (Some []) (seq 0 cols).
