(** C64, C65, C109: selector compression. *)
From Coq Require Import ZArith List Arith Bool Lia Permutation.
From Verif Require Import Field Zp ExprModel ExprSpec SelectorModel SelectorExtra CompressModel CompressSpec CompressProof.
Import ListNotations.
Open Scope nat_scope.

Definition f13 (z : Z) : F13 := mkz 13 (prime_check_sound 13 eq_refl) z.
Lemma char13 k : 0 < k <= 6 -> (fnat k : F13) <> f0.
Proof. intros H E. apply (f_equal (zval 13)) in E. do 7 (destruct k as [|k]; [try lia; vm_compute in E; discriminate|]). lia. Qed.

(** ** C64: whatever the activations, degrees and limit, a compression that does not abort gives every selector one replacement, which is non-zero on exactly the rows where the selector was on (and 1 or 0 for a selector of degree zero); it never aborts when the degrees are within the limit. The field must have more elements than there are selectors. *)
Theorem C64_compression_selects : forall (K : fld) (query : nat -> expr K) (selectors : list (list bool)) (degrees : list nat) (max_degree n : nat) cols asg calls,
  Forall (fun a => length a = n) selectors -> length selectors <= length degrees ->
  (forall k, 0 < k <= length selectors -> (fnat k : K) <> f0) ->
  process query selectors degrees max_degree = Some (cols, asg, calls) ->
  calls = length cols /\ Forall (fun c => length c = n) cols /\
  Permutation (map (fun a => fst (fst a)) asg) (seq 0 (length selectors)) /\
  forall i c e, In (i, c, e) asg -> c < length cols /\
    forall row (v : leaves K), row < n -> value v (query c) = nth row (nth c cols []) f0 ->
      (value v e <> f0 <-> nth row (nth i selectors []) false = true) /\
      (nth i degrees 0 = 0 -> value v e = if nth row (nth i selectors []) false then f1 else f0).
Proof. exact (fun K query => compression_selects K query). Qed.
Print Assumptions C64_compression_selects.

Theorem C64_compression_total : forall (K : fld) (query : nat -> expr K) (selectors : list (list bool)) (degrees : list nat) (max_degree n : nat),
  Forall (fun a => length a = n) selectors -> length selectors <= length degrees -> Forall (fun d => d <= max_degree) degrees ->
  exists r, process query selectors degrees max_degree = Some r.
Proof. exact (fun K query => compression_total K query). Qed.
Print Assumptions C64_compression_total.

(** Four selectors over three rows: the first and the third share a column, the second overlaps the first, the last has degree zero. *)
Definition sels4 : list (list bool) := [[true; false; false]; [true; true; false]; [false; false; true]; [false; true; true]].
Definition column (k : nat) : expr F13 := EFixed k 0%Z.
Example C64_nonvacuous :
  Forall (fun a => length a = 3) sels4 /\ (forall k, 0 < k <= length sels4 -> (fnat k : F13) <> f0) /\ Forall (fun d => d <= 4) [3; 3; 3; 0] /\
  match process column sels4 [3; 3; 3; 0] 4 with
  | Some (cols, asg, calls) => map (map (zval 13)) cols = [[0; 1; 1]; [1; 0; 2]; [1; 1; 0]]%Z /\ map (fun a => fst a) asg = [(3, 0); (0, 1); (2, 1); (1, 2)] /\ calls = 3
  | None => False
  end.
Proof. split; [repeat constructor|]. split; [intros k Hk; apply char13; cbn in Hk; lia|]. split; [repeat constructor|]. vm_compute. auto. Qed.

(** ** C65, refuted: the compressed gates can exceed the degree of the constraint system that was the limit of the compression. *)
Definition gates2 : list (expr F13) := [EProd (ESelector 0 true) (EAdvice 0 0); EProd (ESelector 1 true) (EProd (EAdvice 0 0) (EAdvice 0 0))].
Theorem C65_degree_bound_refuted : exists (K : fld) (num_fixed other : nat) (selectors : list (list bool)) (polys : list (expr K)) cols polys',
  Forall gate_form polys /\ Forall (kinds_ok (fun _ => true) (length selectors)) polys /\
  compress_selectors num_fixed (length selectors) other selectors polys = Some (cols, polys') /\
  exists e', In e' polys' /\ compute_degree other polys < degree e'.
Proof.
  exists F13, 0, 3, [[true; false]; [false; true]], gates2.
  destruct (compress_selectors 0 2 3 [[true; false]; [false; true]] gates2) as [[cols polys']|] eqn:E; [|vm_compute in E; discriminate].
  exists cols, polys'. split; [|split; [repeat constructor|split; [exact E|]]].
  - constructor; [|constructor; [|constructor]]; right; left; eexists; eexists; split; try reflexivity; cbn; auto.
  - assert (H : forallb (fun e => degree e <=? compute_degree 3 gates2) polys' = false).
    { assert (X : match compress_selectors 0 2 3 [[true; false]; [false; true]] gates2 with Some (_, p) => forallb (fun e => degree e <=? compute_degree 3 gates2) p | None => true end = false) by (vm_compute; reflexivity).
      rewrite E in X. exact X. }
    clear E. induction polys' as [|e p IH]; [discriminate|]. cbn in H. apply andb_false_iff in H as [H|H].
    + apply Nat.leb_gt in H. exists e. split; [left; reflexivity|exact H].
    + destruct (IH H) as [e' [Hin Hd]]. exists e'. split; [right; exact Hin|exact Hd].
Qed.
Print Assumptions C65_degree_bound_refuted.

(** What holds: when the degrees of the selectors do not increase with their index (among the non-zero ones), the replacement of a selector keeps every gate that uses it within the limit. *)
Theorem C65_degree_bound_partial : forall (K : fld) (query : nat -> expr K) (selectors : list (list bool)) (degrees : list nat) (max_degree n : nat) cols asg calls,
  (forall k, degree (query k) <= 1) ->
  Forall (fun a => length a = n) selectors -> length selectors <= length degrees ->
  (forall i j di dj, i < j -> nth_error degrees i = Some di -> nth_error degrees j = Some dj -> di <> 0 -> dj <= di) ->
  process query selectors degrees max_degree = Some (cols, asg, calls) ->
  forall i c e, In (i, c, e) asg -> nth i degrees 0 <> 0 -> nth i degrees 0 - 1 + degree e <= max_degree.
Proof. exact (fun K query => compression_degree K query). Qed.
Print Assumptions C65_degree_bound_partial.
Example C65_nonvacuous :
  (forall i j di dj, i < j -> nth_error [3; 3; 3; 0] i = Some di -> nth_error [3; 3; 3; 0] j = Some dj -> di <> 0 -> dj <= di) /\
  match process column sels4 [3; 3; 3; 0] 4 with Some (_, asg, _) => map (fun a => degree (snd a)) asg = [1; 2; 2; 1] | None => False end.
Proof.
  split; [|vm_compute; reflexivity]. intros i j di dj Hij Hi Hj Hd.
  do 4 (destruct i as [|i]; [do 4 (destruct j as [|j]; [try lia; cbn in Hi, Hj; congruence || (injection Hi as <-; injection Hj as <-; lia)|]); destruct j; discriminate|]). destruct i; discriminate.
Qed.

(** ** C109: compressing the selectors of a constraint system never aborts on well-formed gates, and at every row a compressed gate vanishes exactly when the original did, with each selector read as 1 or 0; gates without simple selectors keep their value. *)
Theorem C109_compressed_gates_agree : forall (K : fld) (simple : nat -> bool) (num_fixed other n : nat) (selectors : list (list bool)) (polys : list (expr K)),
  Forall (fun a => length a = n) selectors ->
  (forall k, 0 < k <= length selectors -> (fnat k : K) <> f0) ->
  Forall (kinds_ok simple (length selectors)) polys -> Forall gate_form polys ->
  exists cols polys', compress_selectors num_fixed (length selectors) other selectors polys = Some (cols, polys') /\
    Forall (fun c => length c = n) cols /\ length polys' = length polys /\
    forall row (v : leaves K), row < n -> holds_columns v num_fixed cols row ->
      forall i e e', nth_error polys i = Some e -> nth_error polys' i = Some e' ->
        (value v e' = f0 <-> value (with_selectors v selectors row) e = f0) /\
        (complex_only e -> value v e' = value (with_selectors v selectors row) e).
Proof. exact (fun K => compress_gates K). Qed.
Print Assumptions C109_compressed_gates_agree.

(** Two simple selectors that share a column, and a complex one in a sum. *)
Definition gates3 : list (expr F13) :=
  [EProd (ESelector 0 true) (EAdvice 0 0); EProd (esub (EAdvice 1 1) (EConst (f13 5))) (ESelector 1 true); ESum (EAdvice 0 0) (ENeg (ESelector 2 false))].
Definition sels3 : list (list bool) := [[true; false; false]; [false; false; true]; [true; true; false]].
Example C109_nonvacuous :
  Forall (kinds_ok (fun i => i <? 2) (length sels3)) gates3 /\ Forall gate_form gates3 /\
  exists cols polys', compress_selectors 4 (length sels3) 3 sels3 gates3 = Some (cols, polys') /\ map (map (zval 13)) cols = [[1; 1; 0]; [1; 0; 2]]%Z /\ map degree polys' = [3; 3; 1].
Proof.
  split; [repeat constructor|]. split.
  - constructor; [|constructor; [|constructor; [|constructor]]].
    + right; left. eexists; eexists; split; [reflexivity|]. exact I.
    + right; right. eexists; eexists; split; [reflexivity|]. cbn. auto.
    + left. cbn. auto.
  - destruct (compress_selectors 4 (length sels3) 3 sels3 gates3) as [[cols polys']|] eqn:E; [|vm_compute in E; discriminate].
    exists cols, polys'. split; [reflexivity|].
    assert (X : match compress_selectors 4 (length sels3) 3 sels3 gates3 with Some (c, p) => (map (map (zval 13)) c, map degree p) | None => ([], []) end = ([[1; 1; 0]; [1; 0; 2]]%Z, [3; 3; 1])) by (vm_compute; reflexivity).
    rewrite E in X. injection X. auto.
Qed.
