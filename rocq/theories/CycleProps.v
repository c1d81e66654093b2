(** Property theorems C62 and C102-C104: the copy constraints of the permutation argument.
    [merge_all (create cols rows) pairs] is a fresh CycleStore after MergeCycle for each pair in turn; [None] is an access outside the tables or a loop without end. [connected pairs] (CycleSpec.v) is the equivalence generated by the pairs. *)
From Coq Require Import ZArith List Bool Lia Arith.
From Verif Require Import Field Zp FFTSpec CycleModel CycleSpec CycleProof CycleExtra CycleLabelModel CycleLabel.
Import ListNotations.
Open Scope nat_scope.

(** ** C62: after every history of merges the store is the partition generated by the pairs, and next is a permutation whose cycles are its classes. *)
Theorem C62_store_is_union_find : forall (cols rows : nat) (pairs : list (label * label)),
  Forall (fun p => in_grid cols rows (fst p) /\ in_grid cols rows (snd p)) pairs ->
  exists xs s, merge_all (create cols rows) pairs = Some (xs, s) /\
    (forall i a b x, nth_error pairs i = Some (a, b) -> nth_error xs i = Some x -> (x = true <-> ~ connected (firstn i pairs) a b)) /\
    (forall a b, in_grid cols rows a -> in_grid cols rows b -> exists r, check_same_cycle s a b = Some r /\ (r = true <-> connected pairs a b)) /\
    (forall a, in_grid cols rows a -> exists b, get_next_label s a = Some b /\ in_grid cols rows b) /\
    (forall a b c, in_grid cols rows a -> in_grid cols rows b -> get_next_label s a = Some c -> get_next_label s b = Some c -> a = b) /\
    (forall a b, in_grid cols rows a -> in_grid cols rows b -> (reaches (get_next_label s) a b <-> connected pairs a b)) /\
    (forall a, in_grid cols rows a -> exists same n, get_cycle_size s a = Some n /\ n = length (filter same (all_cells cols rows)) /\
       forall b, in_grid cols rows b -> (same b = true <-> connected pairs a b)).
Proof. exact cycle_store_correct. Qed.
Print Assumptions C62_store_is_union_find.

Theorem C62_copy_constraints : forall (cols rows : nat) (pairs : list (label * label)),
  Forall (fun p => in_grid cols rows (fst p) /\ in_grid cols rows (snd p)) pairs ->
  exists xs s, merge_all (create cols rows) pairs = Some (xs, s) /\
    forall (T : Type) (v : label -> T),
      (forall a b, In (a, b) pairs -> v a = v b) <-> (forall a b, in_grid cols rows a -> get_next_label s a = Some b -> v a = v b).
Proof. exact copy_constraints. Qed.
Print Assumptions C62_copy_constraints.

(** Four merges, the third of which joins two cycles of two cells, the last one redundant. *)
Example C62_nonvacuous :
  let pairs := [((0, 0), (1, 1)); ((0, 2), (1, 0)); ((0, 0), (1, 0)); ((1, 1), (0, 2))] in
  match merge_all (create 2 3) pairs with
  | Some (xs, s) => xs = [true; true; true; false] /\ map (get_next_label s) (all_cells 2 3) = [Some (0, 2); Some (0, 1); Some (1, 0); Some (1, 1); Some (0, 0); Some (1, 2)] /\
                    get_cycle_size s (0, 2) = Some 4 /\ check_same_cycle s (1, 1) (0, 2) = Some true /\ check_same_cycle s (1, 2) (0, 2) = Some false
  | None => False
  end.
Proof. vm_compute. repeat split. Qed.

(** ** C102 (refuted): GetAllLabels does not list each cell of the cycle once: the base comes first and again last. *)
Theorem C102_all_labels_refuted : exists (cols rows : nat) (l : label), in_grid cols rows l /\ get_all_labels (create cols rows) l = Some [l; l].
Proof. exists 1, 1, (0, 0). split; [split; cbn; lia|]. apply (get_all_labels_repeats 1 1 (0, 0)). split; cbn; lia. Qed.
Print Assumptions C102_all_labels_refuted.
(** On a fresh store it does so for every cell. *)
Theorem C102_all_labels_repeats_base_partial : forall (cols rows : nat) (l : label), in_grid cols rows l -> get_all_labels (create cols rows) l = Some [l; l].
Proof. exact get_all_labels_repeats. Qed.
Print Assumptions C102_all_labels_repeats_base_partial.
Example C102_nonvacuous :
  match merge_all (create 2 2) [((0, 0), (1, 1))] with Some (_, s) => get_all_labels s (1, 1) = Some [(0, 0); (1, 1); (0, 0)] | None => False end.
Proof. reflexivity. Qed.

(** ** C103 (refuted): Copy's bounds checks do not exclude row = number of rows, and the access is then outside the tables. *)
Theorem C103_copy_checks_rows_refuted : forall (cols rows c c' : nat), c < cols -> c' < cols ->
  (rows <=? rows) && (0 <=? rows) = true /\ copy rows (create cols rows) c rows c' 0 = None.
Proof. intros cols rows c c' H H'. split; [now rewrite Nat.leb_refl|exact (copy_last_row_undefined cols rows c c' H H')]. Qed.
Print Assumptions C103_copy_checks_rows_refuted.
Example C103_nonvacuous : copy 4 (create 2 4) 0 4 1 0 = None /\ copy 4 (create 2 4) 0 3 1 0 <> None.
Proof. split; [reflexivity|discriminate]. Qed.

(** ** C104: the permutation columns. With g a generator of a group of order T 2^s, T odd, a domain of 2^k rows and at most T columns, the labels δ^c ω^r of the cells are pairwise different, each column entry is the label of a connected cell, no two entries are equal, and an assignment satisfies all copy constraints exactly when it agrees on every cell and the cell whose label stands there. *)
Theorem C104_permutation_columns : forall (K : fld) (g omega : K) (T s k cols : nat) (pairs : list (label * label)),
  Nat.Odd T -> k <= s -> primitive_root g (T * 2 ^ s) -> primitive_root omega (2 ^ k) -> 0 < cols <= T ->
  Forall (fun p => in_grid cols (2 ^ k) (fst p) /\ in_grid cols (2 ^ k) (snd p)) pairs ->
  let delta := get_delta g s in let value := fun l : label => (delta ^ fst l * omega ^ snd l)%fld in
  exists xs st perms,
    merge_all (create cols (2 ^ k)) pairs = Some (xs, st) /\
    generate_permutations (unpermuted_table delta omega cols (2 ^ k)) st cols (2 ^ k) = Some perms /\
    (forall a b, in_grid cols (2 ^ k) a -> in_grid cols (2 ^ k) b -> value a = value b -> a = b) /\
    (forall a, in_grid cols (2 ^ k) a -> exists b, in_grid cols (2 ^ k) b /\ tget perms a = Some (value b) /\ connected pairs a b) /\
    (forall a b, in_grid cols (2 ^ k) a -> in_grid cols (2 ^ k) b -> tget perms a = tget perms b -> a = b) /\
    (forall (V : Type) (v : label -> V), (forall a b, In (a, b) pairs -> v a = v b) <->
       (forall a b, in_grid cols (2 ^ k) a -> in_grid cols (2 ^ k) b -> tget perms a = Some (value b) -> v a = v b)).
Proof. exact (fun K => permutation_columns K). Qed.
Print Assumptions C104_permutation_columns.

(** Over F13: 12 = 3 * 2^2, g = 2, δ = 2^4 = 3, ω = 8 of order 4; three columns of four rows. *)
Definition n13 (n : Z) : F13 := mkz 13 (prime_check_sound 13 eq_refl) n.
Example C104_nonvacuous :
  primitive_root (n13 2) (3 * 2 ^ 2) /\ primitive_root (n13 8) (2 ^ 2) /\
  match merge_all (create 3 4) [((0, 1), (2, 3)); ((2, 3), (1, 0))] with
  | Some (_, s) => option_map (map (map (zval 13))) (generate_permutations (unpermuted_table (get_delta (n13 2) 2) (n13 8) 3 4) s 3 4) =
                     Some [[1; 6; 12; 5]; [8; 11; 10; 2]; [9; 7; 4; 3]]%Z
  | None => False
  end.
Proof.
  split; [|split].
  - split; [apply zp_eq; vm_compute; reflexivity|]. intros i Hi E. apply (f_equal (zval 13)) in E. do 12 (destruct i as [|i]; [try lia; vm_compute in E; discriminate|]). cbn in Hi. lia.
  - split; [apply zp_eq; vm_compute; reflexivity|]. intros i Hi E. apply (f_equal (zval 13)) in E. do 4 (destruct i as [|i]; [try lia; vm_compute in E; discriminate|]). cbn in Hi. lia.
  - vm_compute. reflexivity.
Qed.
