(** Concrete tables. *)
From Coq Require Import List Bool Arith Lia Permutation.
From Verif Require Import TableModel TableSpec TableProof.
Import ListNotations.

(** Columns 3 and 5 with two rows each, row 1 of column 3 given twice. *)
Definition small_table : list (nat * nat * nat) := [(3, 0, 10); (3, 1, 99); (5, 1, 21); (5, 0, 20); (3, 1, 11)].
Lemma small_rectangle : rectangle small_table 2.
Proof.
  split; [discriminate|]. intros c [o [v H]] r. split.
  - intros [w [E|[E|[E|[E|[E|[]]]]]]]; injection E as E1 E2 E3; lia.
  - intro L. assert (Hc : c = 3 \/ c = 5) by (destruct H as [E|[E|[E|[E|[E|[]]]]]]; injection E as E1 E2 E3; lia).
    assert (Hr : r = 0 \/ r = 1) by lia. destruct Hr as [Hr|Hr]; rewrite Hr; destruct Hc as [Hc|Hc]; rewrite Hc.
    + exists 10. now left.
    + exists 20. do 3 right. now left.
    + exists 11. do 4 right. now left.
    + exists 21. do 2 right. now left.
Qed.
Lemma small_fresh : fresh [1; 2] small_table.
Proof. intros c [o [v H]] X. destruct X as [X|[X|[]]]; destruct H as [E|[E|[E|[E|[E|[]]]]]]; injection E as E1 E2 E3; lia. Qed.
Lemma small_once : first_rows_once small_table.
Proof. unfold first_rows_once. simpl. repeat constructor; simpl; [intros [E|[]]; discriminate | intros []]. Qed.

Lemma table_iff {V} arrange usable used f (cells : list (nat * nat * V)) : (forall l, Permutation (arrange l) l) ->
  (forall n, n < usable -> rectangle cells n -> fresh used cells -> first_rows_once cells ->
     exists used' f', assign_table (Keygen usable) arrange used f cells = Done (map (fun _ => true) cells, used', f') /\
       (forall c, In c used' <-> In c used \/ in_table cells c) /\ laid_out cells n usable f f') /\
  (forall bs used' f', assign_table (Keygen usable) arrange used f cells = Done (bs, used', f') -> Forall (eq true) bs ->
     exists n, n < usable /\ rectangle cells n /\ fresh used cells /\ first_rows_once cells) /\
  ((forall c o v, In (c, o, v) cells -> o < usable) -> fresh used cells -> first_rows_once cells -> (forall n, ~ rectangle cells n) ->
     assign_table (Keygen usable) arrange used f cells = CheckFailed).
Proof.
  intro Hp. split; [intros; now apply table_done|]. split; [intros bs u g E B; eapply table_accepts; eassumption | now apply ragged_refused].
Qed.

Lemma refused_writes : exists (m : values nat) (f f' : columns nat) m', assign_cell (Keygen 4) [] m f 0 0 7 = Done (false, m', f') /\ f 0 0 = Some 5 /\ f' 0 0 = Some 7 /\
  (forall g, fill_columns (Keygen 4) 1 m' [] f' = Done ([0], g) -> g 0 0 = Some 7 /\ g 0 1 = Some 5).
Proof.
  exists [(0, (Some (Some 5), [true]))], (set_cell (fun _ _ => None) 0 0 5), (set_cell (set_cell (fun _ _ => None) 0 0 5) 0 0 7), [(0, (Some (Some 5), [true]))].
  split; [reflexivity|]. split; [reflexivity|]. split; [reflexivity|]. intros g E. injection E as <-. split; reflexivity.
Qed.
