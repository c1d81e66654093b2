(** Model of tachyon/zk/plonk/constraint_system/selector_compressor.h (SC), exclusion_matrix.h (EM), selector_description.h (SD) and of ConstraintSystem::CompressSelectors (constraint_system.h). Only definitions.
    Degrees and indices are naturals: all sums are of a degree and a number of selectors, so no size_t wraps. [None] is a failed CHECK or an access out of bounds. *)
From Coq Require Import List Arith Bool.
From Verif Require Import Field ExprModel.
Import ListNotations.

(** SelectorDescription, SD:19-56. *)
Record description : Type := { selector_index : nat; activations : list bool; max_degree_of : nat }.
(** IsOrthogonal, SD:36-43. *)
Definition is_orthogonal (a b : description) : bool := forallb (fun p => negb (fst p && snd p)) (combine (activations a) (activations b)).

(** ExclusionMatrix, EM:61-69: row i holds the entries j < i. *)
Definition exclusion_matrix (sels : list description) : list (list bool) :=
  map (fun i => map (fun j => match nth_error sels i, nth_error sels j with Some a, Some b => negb (is_orthogonal a b) | _, _ => false end) (seq 0 i)) (seq 0 (length sels)).
(** IsExclusive, EM:75-79. *)
Definition is_exclusive (m : list (list bool)) (src dst : nat) : option bool :=
  match nth_error m (Nat.max src dst) with Some row => nth_error row (Nat.min src dst) | None => None end.
(** std::any_of over combination_added, SC:213-217. *)
Fixpoint any_exclusive (m : list (list bool)) (j : nat) (added : list nat) : option bool :=
  match added with
  | [] => Some false
  | i :: r => match is_exclusive m j i with
              | None => None
              | Some true => Some true
              | Some false => any_exclusive m j r
              end
  end.

Definition set_true (l : list bool) (i : nat) : list bool := firstn i l ++ true :: skipn (S i) l.

(** The inner loop of CombineSimpleSelectors, SC:198-233. [deg] is selector.max_degree() of the outer selector, which line 223 reads. *)
Fixpoint join (m : list (list bool)) (max_degree deg : nat) (js : list nat) (d : nat) (comb : list nat) (added : list bool) : option (list nat * list bool) :=
  match js with
  | [] => Some (comb, added)
  | j :: js' =>
      if (d + length comb =? max_degree) then Some (comb, added) else
      match nth_error added j with
      | None => None
      | Some true => join m max_degree deg js' d comb added
      | Some false =>
          match any_exclusive m j comb with
          | None => None
          | Some true => join m max_degree deg js' d comb added
          | Some false =>
              let new_d := Nat.max d (deg - 1) in
              if (max_degree <? new_d + length comb + 1) then join m max_degree deg js' d comb added
              else join m max_degree deg js' new_d (comb ++ [j]) (set_true added j)
          end
      end
  end.

(** CombineSimpleSelectors, SC:176-237: the combinations, as lists of positions in [sels], in the order they are constructed. *)
Fixpoint combine_simple (m : list (list bool)) (sels : list description) (max_degree : nat) (is : list nat) (added : list bool) : option (list (list nat)) :=
  match is with
  | [] => Some []
  | i :: is' =>
      match nth_error added i, nth_error sels i with
      | Some true, _ => combine_simple m sels max_degree is' added
      | Some false, Some s =>
          if max_degree <? max_degree_of s then None else
          match join m max_degree (max_degree_of s) (seq (S i) (length sels - S i)) (max_degree_of s - 1) [i] (set_true added i) with
          | None => None
          | Some (comb, added') =>
              match combine_simple m sels max_degree is' added' with
              | None => None
              | Some r => Some (comb :: r)
              end
          end
      | _, _ => None
      end
  end.

Section Compress.
  Variable K : fld.
  Open Scope fld_scope.

  (** The callback: its [k]-th run (from 0) allocates a new fixed column and returns the query of it. *)
  Variable query : nat -> expr K.

  (** SelectorAssignment (selector_assignment.h): selector index, combination index, expression. *)
  Definition assignment : Type := (nat * nat * expr K)%type.
  (** combination_assignments_, selector_assignments_ and the number of runs of the callback so far. *)
  Definition result : Type := (list (list K) * list assignment * nat)%type.

  (** HandleZeroDegreeSelectors, SC:155-174. *)
  Fixpoint zero_degree (sels : list description) (st : result) : list description * result :=
    match sels with
    | [] => ([], st)
    | s :: r =>
        if max_degree_of s =? 0 then
          let '(cols, asg, calls) := st in
          zero_degree r (cols ++ [map (fun b : bool => if b then (1 : K) else 0) (activations s)],
                         asg ++ [(selector_index s, length cols, query calls)], S calls)
        else let '(rest, st') := zero_degree r st in (s :: rest, st')
    end.

  (** The expression built for one selector, SC:262-270: [i] runs from 0, [root] from one. *)
  Fixpoint root_product (q : expr K) (assigned_root : K) (len : nat) (root : K) (e : expr K) : expr K :=
    match len with
    | O => e
    | S len' => root_product q assigned_root len' (root + 1)
                  (if feqb root assigned_root then e else EProd e (esub (EConst root) q))
    end.
  (** Lines 272-280: the rows where the selector is on receive the root; activations[i] for i < n. *)
  Fixpoint write_root (col : list K) (acts : list bool) (root : K) : option (list K) :=
    match col, acts with
    | [], _ => Some []
    | _ :: _, [] => None
    | c :: col', a :: acts' => match write_root col' acts' root with Some r => Some ((if a then root else c) :: r) | None => None end
    end.
  (** ConstructCombinedSelector, SC:239-287. *)
  Fixpoint combined_loop (q : expr K) (index len : nat) (comb : list description) (root : K) (col : list K) (asg : list assignment) : option (list K * list assignment) :=
    match comb with
    | [] => Some (col, asg)
    | s :: r =>
        match write_root col (activations s) root with
        | None => None
        | Some col' => combined_loop q index len r (root + 1) col' (asg ++ [(selector_index s, index, root_product q root len 1 q)])
        end
    end.
  Definition construct_combined (n : nat) (comb : list description) (st : result) : option result :=
    let '(cols, asg, calls) := st in
    match combined_loop (query calls) (length cols) (length comb) comb 1 (repeat 0 n) asg with
    | None => None
    | Some (col, asg') => Some (cols ++ [col], asg', S calls)
    end.
  Fixpoint pick {A} (l : list A) (is : list nat) : option (list A) :=
    match is with
    | [] => Some []
    | i :: r => match nth_error l i, pick l r with Some x, Some y => Some (x :: y) | _, _ => None end
    end.
  Fixpoint construct_all (n : nat) (sels : list description) (combs : list (list nat)) (st : result) : option result :=
    match combs with
    | [] => Some st
    | c :: r => match pick sels c with
                | None => None
                | Some comb => match construct_combined n comb st with Some st' => construct_all n sels r st' | None => None end
                end
    end.

  (** base::Map over selectors_in with degrees[i], SC:108-113. *)
  Fixpoint describe (i : nat) (selectors_in : list (list bool)) (degrees : list nat) : option (list description) :=
    match selectors_in with
    | [] => Some []
    | a :: r => match nth_error degrees i, describe (S i) r degrees with
                | Some d, Some rest => Some ({| selector_index := i; activations := a; max_degree_of := d |} :: rest)
                | _, _ => None
                end
    end.
  (** Process, SC:63-149. ConstructCombinedSelector runs inside the loop of CombineSimpleSelectors but influences nothing there, so the combinations are computed first. *)
  Definition process (selectors_in : list (list bool)) (degrees : list nat) (max_degree : nat) : option result :=
    match selectors_in with
    | [] => Some ([], [], 0%nat)
    | a0 :: _ =>
        match describe 0 selectors_in degrees with
        | None => None
        | Some sels =>
            let '(rest, st) := zero_degree sels ([], [], 0%nat) in
            match combine_simple (exclusion_matrix rest) rest max_degree (seq 0 (length rest)) (repeat false (length rest)) with
            | None => None
            | Some combs => construct_all (length a0) rest combs st
            end
        end
    end.
End Compress.
Arguments zero_degree {K}. Arguments root_product {K}. Arguments write_root {K}. Arguments combined_loop {K}. Arguments construct_combined {K}. Arguments construct_all {K}. Arguments process {K}.
