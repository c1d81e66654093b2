(** Property theorems C229-C232 and C235: lookup tables and zk::Value.
    TableSpec.v defines [rectangle] (all columns of the table have the rows 0 .. n-1), [fresh], [first_rows_once], [given] and [laid_out]. *)
From Coq Require Import List Bool Arith Lia Permutation.
From Verif Require Import TableModel TableSpec TableProof TableExtra.
Import ListNotations.

(** AssignLookupTable while the keys are made, whatever the order of its hash map: a rectangular table with fresh columns is laid out and
    padded with its first row, all calls return true and its columns are taken; nothing else is accepted without a complaint; a table
    that is not rectangular is refused. *)
Theorem C229_lookup_table : forall (V : Type) (arrange : values V -> values V) (usable : nat) (used : list nat) (f : columns V) (cells : list (nat * nat * V)),
  (forall l, Permutation (arrange l) l) ->
  (forall n, n < usable -> rectangle cells n -> fresh used cells -> first_rows_once cells ->
     exists used' f', assign_table (Keygen usable) arrange used f cells = Done (map (fun _ => true) cells, used', f') /\
       (forall c, In c used' <-> In c used \/ in_table cells c) /\ laid_out cells n usable f f') /\
  (forall bs used' f', assign_table (Keygen usable) arrange used f cells = Done (bs, used', f') -> Forall (eq true) bs ->
     exists n, n < usable /\ rectangle cells n /\ fresh used cells /\ first_rows_once cells) /\
  ((forall c o v, In (c, o, v) cells -> o < usable) -> fresh used cells -> first_rows_once cells -> (forall n, ~ rectangle cells n) ->
     assign_table (Keygen usable) arrange used f cells = CheckFailed).
Proof. exact (fun V => @table_iff V). Qed.
Print Assumptions C229_lookup_table.

(** A column that belongs to an earlier table is refused and nothing changes. *)
Theorem C229_columns_are_not_reused : forall (V : Type) (used : list nat) (f : columns V) (p : pass) (m : values V) (c o : nat) (v : V),
  In c used -> assign_cell p used m f c o v = Done (false, m, f).
Proof. exact (fun V => @reuse_refused V). Qed.
Print Assumptions C229_columns_are_not_reused.

Example C229_nonvacuous : rectangle small_table 2 /\ fresh [1; 2] small_table /\ first_rows_once small_table /\
  match assign_table (Keygen 4) (fun l => rev l) [1; 2] (fun _ _ => None) small_table with
  | Done (bs, used', f') => bs = [true; true; true; true; true] /\ used' = [1; 2; 5; 3] /\
      map (f' 3) (seq 0 5) = [Some 10; Some 11; Some 10; Some 10; None] /\ map (f' 5) (seq 0 5) = [Some 20; Some 21; Some 20; Some 20; None] /\ f' 4 0 = None
  | _ => False
  end.
Proof. split; [exact small_rectangle|]. split; [exact small_fresh|]. split; [exact small_once|]. vm_compute. repeat split. Qed.

(** A table that fills all usable rows needs no padding, but is refused. *)
Theorem C230_full_table_refuted : forall (V : Type) (arrange : values V -> values V) (used : list nat) (f : columns V) (cells : list (nat * nat * V)),
  (forall l, Permutation (arrange l) l) -> forall usable, rectangle cells usable -> fresh used cells -> first_rows_once cells ->
  assign_table (Keygen usable) arrange used f cells = CheckFailed.
Proof. exact (fun V => @full_table_refused V). Qed.
Print Assumptions C230_full_table_refuted.

Example C230_nonvacuous : rectangle small_table 2 /\ assign_table (Keygen 2) (fun l => l) [1; 2] (fun _ _ => None) small_table = CheckFailed.
Proof. split; [exact small_rectangle | reflexivity]. Qed.

(** In the prover's pass every table makes AssignLookupTable read an empty optional. *)
Theorem C231_table_while_proving_refuted : forall (V : Type) (arrange : values V -> values V) (used : list nat) (f : columns V) (cells : list (nat * nat * V)),
  (forall l, Permutation (arrange l) l) -> forall n, rectangle cells n -> fresh used cells -> first_rows_once cells ->
  assign_table Proving arrange used f cells = EmptyRead.
Proof. exact (fun V => @proving_reads_empty V). Qed.
Print Assumptions C231_table_while_proving_refuted.

Example C231_nonvacuous : assign_table Proving (fun l => l) [1; 2] (fun _ _ => None) small_table = EmptyRead.
Proof. reflexivity. Qed.

(** operator!= of Value never returns. *)
Theorem C232_value_inequality_refuted : forall (T : Type) (fuel : nat) (a b : option T), value_neq fuel a b = None.
Proof. exact (fun T => @neq_diverges T). Qed.
Print Assumptions C232_value_inequality_refuted.

Example C232_nonvacuous : value_eqb Nat.eqb (Some 1) (Some 2) = false /\ value_neq 100 (Some 1) (Some 2) = None.
Proof. split; reflexivity. Qed.

(** An AssignCell that returns false because row 0 was already given has overwritten row 0, but not the padding. *)
Theorem C235_refused_cell_refuted : exists (m : values nat) (f f' : columns nat) m', assign_cell (Keygen 4) [] m f 0 0 7 = Done (false, m', f') /\ f 0 0 = Some 5 /\ f' 0 0 = Some 7 /\
  (forall g, fill_columns (Keygen 4) 1 m' [] f' = Done ([0], g) -> g 0 0 = Some 7 /\ g 0 1 = Some 5).
Proof. exact refused_writes. Qed.
Print Assumptions C235_refused_cell_refuted.
