(** Properties C269-C270: the prover's witness collection. *)
From Coq Require Import List Bool Arith Lia Sorted.
From Verif Require Import WitnessModel WitnessSpec WitnessProof WitnessExtra.
Import ListNotations.

(** ** C269: the collected witness *)
(** Calls of later phases are accepted whatever they say; all others need a column, a usable row and a known value. *)
Theorem C269_accepted : forall R F (z : R) n cols usable phase (ch : list (nat * F)) ins cs, usable <= n ->
  ((exists ran w, assign_all (witness_new z n cols usable phase ch ins) cs = Finished (ran, w)) <->
   Forall (acceptable cols usable phase) cs).
Proof. exact witness_accepts. Qed.
Print Assumptions C269_accepted.

(** Each cell holds the value of the last call for it; callbacks of later phases are not run; the other rows are zero. *)
Theorem C269_cells : forall R F (z : R) n cols usable phase (ch : list (nat * F)) ins cs ran w, usable <= n ->
  assign_all (witness_new z n cols usable phase ch ins) cs = Finished (ran, w) ->
  length (w_advices w) = cols /\ (forall j l, nth_error (w_advices w) j = Some l -> length l = n) /\
  ran = map (fun c => Nat.leb (c_phase c) phase) cs /\
  (forall j r, j < cols -> r < n -> exists v, entry (w_advices w) j r = Some v /\ cell_value z phase cs j r v) /\
  (forall j r, j < cols -> usable <= r < n -> entry (w_advices w) j r = Some z).
Proof. exact witness_cells. Qed.
Print Assumptions C269_cells.

(** Challenges and instances at any point of the synthesis *)
Theorem C269_queries : forall R F (z : R) (fz : F) n cols usable phase (ch : list (nat * F)) ins cs ran w, usable <= n ->
  NoDup (map fst ch) ->
  assign_all (witness_new z n cols usable phase ch ins) cs = Finished (ran, w) ->
  (forall i c, get_challenge w i = Some c <-> In (i, c) ch) /\
  (forall j r l v, nth_error ins j = Some l -> r < usable -> nth_error l r = Some v -> query_instance fz w j r = Finished v) /\
  (forall j r l, nth_error ins j = Some l -> length l <= r < usable -> query_instance fz w j r = Finished fz) /\
  (forall j r, length ins <= j \/ usable <= r -> query_instance fz w j r = Stopped).
Proof. exact witness_queries. Qed.
Print Assumptions C269_queries.

Example C269_nonvacuous :
  match assign_all w_ex calls_ex with
  | Finished (ran, w) => ran = [true; false; true; true] /\ w_advices w = [[0; 7; 6; 0; 0]; [0; 0; 0; 0; 0]] /\
      get_challenge w 4 = Some 11 /\ query_instance 0 w 0 1 = Finished 2
  | _ => False
  end.
Proof. vm_compute. repeat split. Qed.

(** ** C270: the advice columns committed to *)
(** Those of the current phase, all of them; usable rows as assigned, then zeros, and one in the last row. *)
Theorem C270_columns : forall R F (ev : R -> F) (z : R) one n phases usable phase (ch : list (nat * F)) ins cs ran w,
  usable < n ->
  assign_all (witness_new z n (length phases) usable phase ch ins) cs = Finished (ran, w) ->
  (forall j, (exists col, In (j, col) (phase_columns one ev n phase phases (w_advices w))) <-> nth_error phases j = Some phase) /\
  (forall j col, In (j, col) (phase_columns one ev n phase phases (w_advices w)) ->
    length col = n /\
    (forall r, r < usable -> exists v, nth_error col r = Some (ev v) /\ cell_value z phase cs j r v) /\
    (forall r, usable <= r < n - 1 -> nth_error col r = Some (ev z)) /\
    nth_error col (n - 1) = Some one).
Proof. exact committed_columns. Qed.
Print Assumptions C270_columns.

(** Each once, in the order of their indices *)
Theorem C270_order : forall R F (ev : R -> F) one n phase phases (adv : list (list R)),
  StronglySorted lt (map fst (phase_columns one ev n phase phases adv)).
Proof. exact columns_sorted. Qed.
Print Assumptions C270_order.

(** The rows after the usable ones are the same for all circuits, columns and proofs: they hide nothing. *)
Theorem C270_inactive_rows_fixed : forall R F (ev : R -> F) (z : R) one n usable
    phases phase (ch : list (nat * F)) ins cs ran w j col phases' phase' (ch' : list (nat * F)) ins' cs' ran' w' j' col',
  usable < n ->
  assign_all (witness_new z n (length phases) usable phase ch ins) cs = Finished (ran, w) ->
  In (j, col) (phase_columns one ev n phase phases (w_advices w)) ->
  assign_all (witness_new z n (length phases') usable phase' ch' ins') cs' = Finished (ran', w') ->
  In (j', col') (phase_columns one ev n phase' phases' (w_advices w')) ->
  forall r, usable <= r -> nth_error col r = nth_error col' r.
Proof. exact inactive_rows_fixed. Qed.
Print Assumptions C270_inactive_rows_fixed.

Example C270_nonvacuous :
  match assign_all w_ex calls_ex with
  | Finished (_, w) => phase_columns 1 (fun x => 2 * x) 5 0 [0; 1] (w_advices w) = [(0, [0; 14; 12; 0; 1])]
  | _ => False
  end.
Proof. vm_compute. reflexivity. Qed.
