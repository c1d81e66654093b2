(** Model of the lookup tables of zk/plonk/layout: floor_planner/simple_lookup_table_layouter.h, lookup_table_assigner.h, and
    AssignFixed and FillFromRow of keys/assembly.h and halo2/witness_collection.h. Only definitions.
    Simplifications: names, logging and region scopes are left out; the callback of a table is the list of the AssignCell calls it
    makes, whatever they return; a row is a nat (the Assembly refuses rows that are not usable before anything is computed with
    them, and the number of usable rows is a uint32_t, so nothing wraps); fixed columns are functions from row to value, [None] for
    a cell that nobody wrote; a column index that is out of range is left out. *)
From Coq Require Import List Bool Arith.
Import ListNotations.

Section Table.
  Context {V : Type}.

  (** What can happen: a result, a failed CHECK, or the contents of an empty optional are read. *)
  Inductive outcome (A : Type) := Done (a : A) | CheckFailed | EmptyRead.
  Arguments Done {A}. Arguments CheckFailed {A}. Arguments EmptyRead {A}.

  Definition columns := nat -> nat -> option V.
  Definition set_cell (f : columns) (c r : nat) (v : V) : columns := fun c' r' => if Nat.eqb c' c && Nat.eqb r' r then Some v else f c' r'.

  (** Which Assignment it is: the Assembly that makes the keys, or the WitnessCollection of the prover. *)
  Inductive pass := Keygen (usable : nat) | Proving.

  (** keys/assembly.h:56-61 AssignFixed runs the callback and stores the value; the one of the WitnessCollection is
      layout/assignment.h's, which does nothing. The second component: the value that the callback has seen. *)
  Definition assign_fixed (p : pass) (f : columns) (c r : nat) (v : V) : outcome (columns * option V) :=
    match p with
    | Keygen usable => if Nat.ltb r usable then Done (set_cell f c r v, Some v) else CheckFailed
    | Proving => Done (f, None)
    end.
  (** keys/assembly.h:71-80 FillFromRow, usable_rows_ = [0, usable); layout/assignment.h:77-78 does nothing. *)
  Definition fill_from_row (p : pass) (f : columns) (c from : nat) (v : V) : outcome columns :=
    match p with
    | Keygen usable =>
        if Nat.ltb from usable then Done (fold_left (fun f r => set_cell f c r v) (seq from (usable - from)) f) else CheckFailed
    | Proving => Done f
    end.

  (** simple_lookup_table_layouter.h:27-38 Value: default_value and assigned. *)
  Definition entry : Type := (option (option V) * list bool)%type.
  Definition values := list (nat * entry).
  Fixpoint find (m : values) (c : nat) : entry :=
    match m with [] => (None, []) | (c', e) :: r => if Nat.eqb c' c then e else find r c end.
  Fixpoint store (m : values) (c : nat) (e : entry) : values :=
    match m with [] => [(c, e)] | (c', e') :: r => if Nat.eqb c' c then (c, e) :: r else (c', e') :: store r c e end.

  (** simple_lookup_table_layouter.h:78-81. *)
  Definition resize (l : list bool) (n : nat) : list bool := l ++ repeat false (n - length l).
  Fixpoint set_true (l : list bool) (i : nat) : list bool :=
    match l, i with [], _ => [] | _ :: r, O => true :: r | b :: r, S j => b :: set_true r j end.
  Definition mark (l : list bool) (offset : nat) : list bool :=
    set_true (if Nat.leb (length l) offset then resize l (offset + 1) else l) offset.

  (** simple_lookup_table_layouter.h:48-83 AssignCell: the result, values_ and the fixed columns. *)
  Definition assign_cell (p : pass) (used : list nat) (m : values) (f : columns) (c offset : nat) (v : V) : outcome (bool * values * columns) :=
    if existsb (Nat.eqb c) used then Done (false, m, f)
    else
      let e := find m c in
      match assign_fixed p f c offset v with
      | Done (f', seen) =>
          if Nat.eqb offset 0 then
            match fst e with
            | None => Done (true, store m c (Some seen, mark (snd e) offset), f')
            | Some _ => Done (false, store m c e, f')
            end
          else Done (true, store m c (fst e, mark (snd e) offset), f')
      | CheckFailed => CheckFailed
      | EmptyRead => EmptyRead
      end.
  Fixpoint assign_cells (p : pass) (used : list nat) (m : values) (f : columns) (cells : list (nat * nat * V)) : outcome (list bool * values * columns) :=
    match cells with
    | [] => Done ([], m, f)
    | (c, o, v) :: r =>
        match assign_cell p used m f c o v with
        | Done (b, m', f') =>
            match assign_cells p used m' f' r with
            | Done (bs, m'', f'') => Done (b :: bs, m'', f'')
            | CheckFailed => CheckFailed
            | EmptyRead => EmptyRead
            end
        | CheckFailed => CheckFailed
        | EmptyRead => EmptyRead
        end
    end.

  (** lookup_table_assigner.h:47-59: the length of a column without holes. *)
  Definition assigned_size (e : entry) : option nat := if forallb (fun b => b) (snd e) then Some (length (snd e)) else None.
  (** lookup_table_assigner.h:60-69; the outer None is a failed CHECK. *)
  Fixpoint common_size (first_unused : option nat) (l : list (option nat)) : option (option nat) :=
    match l with
    | [] => Some first_unused
    | None :: _ => None
    | Some n :: r =>
        match first_unused with
        | Some m => if Nat.eqb m n then common_size first_unused r else None
        | None => common_size (Some n) r
        end
    end.
  (** lookup_table_assigner.h:75-82. *)
  Fixpoint fill_columns (p : pass) (n : nat) (l : values) (used : list nat) (f : columns) : outcome (list nat * columns) :=
    match l with
    | [] => Done (used, f)
    | (c, (d, _)) :: r =>
        match d with
        | Some (Some v) =>
            match fill_from_row p f c n v with
            | Done f' => fill_columns p n r (used ++ [c]) f'
            | CheckFailed => CheckFailed
            | EmptyRead => EmptyRead
            end
        | _ => EmptyRead
        end
    end.
  (** lookup_table_assigner.h:31-83 AssignLookupTable; [arrange] is the order in which the hash map enumerates its entries. *)
  Definition assign_table (p : pass) (arrange : values -> values) (used : list nat) (f : columns) (cells : list (nat * nat * V)) :
    outcome (list bool * list nat * columns) :=
    match assign_cells p used [] f cells with
    | Done (bs, m, f') =>
        match common_size None (map (fun e => assigned_size (snd e)) (arrange m)) with
        | Some (Some n) =>
            match fill_columns p n (arrange m) used f' with
            | Done (used', f'') => Done (bs, used', f'')
            | CheckFailed => CheckFailed
            | EmptyRead => EmptyRead
            end
        | _ => CheckFailed
        end
    | CheckFailed => CheckFailed
    | EmptyRead => EmptyRead
    end.
End Table.
Arguments columns : clear implicits.
Arguments values : clear implicits.
Arguments Done {A}. Arguments CheckFailed {A}. Arguments EmptyRead {A}.

(** zk/base/value.h:64-66: operator!= of Value is a call of itself; [fuel] is the depth of the stack. *)
Fixpoint value_neq {T} (fuel : nat) (a b : option T) : option bool :=
  match fuel with O => None | S n => value_neq n a b end.
(** zk/base/value.h:59-63 operator==. *)
Definition value_eqb {T} (eqb : T -> T -> bool) (a b : option T) : bool :=
  match a, b with
  | None, None => true
  | Some x, Some y => eqb x y
  | _, _ => false
  end.
