(** Property theorems C190-C199: the log-derivative lookup argument, the shuffle argument, the compression of columns by a challenge.
    [big] is ToBigInt (injective), [sort] any sort of (row, key) entries by key, [visit] the order in which the threads look the inputs up, [omp] the build, [rnd] the blinding values. *)
From Coq Require Import ZArith List Bool Lia Arith Permutation Sorted Ring Field Field_theory.
From Verif Require Import Field Zp LookupModel LookupSpec LookupProof LookupProps GrandProductModel GrandProductSpec GrandProductExtra GrandProductSound LogDerivModel LogDerivSpec LogDerivProof LogDerivExtra LogDerivSound.
Import ListNotations.
Open Scope nat_scope.

(** ** C190: BinarySearchByKey on a range ascending by key never leaves the range, ends, and finds an entry with the key exactly when there is one. *)
Theorem C190_binary_search : forall (A : Type) (key : A -> Z) (t : list A) (v : Z), StronglySorted (fun x y => (key x <= key y)%Z) t ->
  exists r, binary_search_by_key key t v = Some r /\
    match r with
    | Some p => exists x, nth_error t p = Some x /\ key x = v
    | None => forall x, In x t -> key x <> v
    end.
Proof. exact (@binary_search_ok). Qed.
Print Assumptions C190_binary_search.
Example C190_nonvacuous : map (fun v => binary_search_by_key (fun x : Z => x) [2; 3; 3; 5; 8]%Z v) [2; 3; 8; 4; 9; 1]%Z = [Some (Some 0); Some (Some 2); Some (Some 4); Some None; Some None; Some None] /\
  StronglySorted (fun x y => (x <= y)%Z) [2; 3; 3; 5; 8]%Z.
Proof. split; [reflexivity|]. repeat constructor; lia. Qed.

(** ** C191: the multiplicities. For every order of the lookups the column m is the same: zero outside the usable rows, inside them the image of counts which, summed over the rows that hold a table value,
    give the number of times the inputs hold it. The shared counters are left at zero. *)
Theorem C191_multiplicities : forall (K : fld) (big : K -> Z) (sort : list (nat * Z) -> list (nat * Z)), (forall x y, big x = big y -> x = y) -> sorts_by_key sort ->
  forall (n u : nat) (table : nat -> K) (visit : list K), u <= n ->
  exists (m : list K) (c : nat -> nat),
    (forall visit', Permutation visit visit' -> compute_m big sort n u table visit' (repeat 0 u) = Some (m, repeat 0 u)) /\
    length m = n /\ (forall i, i < n -> nth_error m i = Some (if i <? u then fnat (c i) else 0%fld)) /\
    forall v, (exists i, i < u /\ table i = v) -> list_sum (map (fun i => if feqb (table i) v then c i else 0) (seq 0 u)) = occurrences visit v.
Proof. exact (fun K => multiplicities K). Qed.
Print Assumptions C191_multiplicities.
Lemma sort_snd_ok : sorts_by_key (sort_key snd).
Proof.
  intros l. destruct (sort_key_sorts (nat * Z) snd l) as [HP HS]. split; [exact HP|]. unfold ascending in HS. clear HP. induction HS as [|x r HS IH HF]; [constructor|]. constructor; [exact IH|].
  rewrite Forall_forall in *. intros y Hy. specialize (HF y Hy). apply Z.ltb_ge in HF. exact HF.
Qed.
Example C191_nonvacuous :
  (forall x y : F13, zval 13 x = zval 13 y -> x = y) /\ sorts_by_key (sort_key snd) /\
  option_map (fun p => (map (zval 13) (fst p), snd p)) (compute_m (K := F13) (zval 13) (sort_key snd) 5 3 (fun j => cell [m13 7; m13 2; m13 7; m13 1; m13 1] j) [m13 7; m13 2; m13 7; m13 5; m13 7; m13 2] (repeat 0 3)) = Some ([3; 2; 0; 0; 0]%Z, [0; 0; 0]).
Proof. split; [intros; now apply zp_eq|]. split; [exact sort_snd_ok|]. vm_compute. reflexivity. Qed.

(** ** C192: completeness. When every usable input is in the usable table and the challenge hits no table value, the prover's multiplicities and grand sum exist for both builds, every number of threads, every order of the
    lookups and whatever the shared storage held, and every constraint vanishes on every row. *)
Theorem C192_log_derivative_completeness : forall (K : fld) (big : K -> Z) (sort : list (nat * Z) -> list (nat * Z)), (forall x y, big x = big y -> x = y) -> sorts_by_key sort ->
  forall (omp : bool) (threads : Z) (n bf : nat) (rnd : nat -> K) (from : nat) (inputs : list (nat -> K)) (table : nat -> K) (visit : list K) (beta : K) (stale : list K),
  bf + 1 < n -> inputs <> [] -> (0 < threads)%Z -> (2 * Z.of_nat n + threads < 2 ^ 64)%Z ->
  let u := n - (bf + 1) in
  Permutation (values_of u inputs) visit ->
  (forall f j, In f inputs -> j < u -> exists i, i < u /\ f j = table i) -> (forall i, i < u -> (table i + beta <> 0)%fld) ->
  exists (m z : list K) (from' : nat),
    compute_m big sort n u table visit (repeat 0 u) = Some (m, repeat 0 u) /\
    create_grand_sum omp threads n bf rnd from m inputs table beta stale = Some (z, from') /\
    length m = n /\ length z = n /\
    forall j, j < n ->
      evaluator_terms (first_row j) (last_row u j) (1 - (last_row u j + blind_row u j))%fld (cell z j) (cell z (next_row n j)) (cell m j) (table j + beta)%fld (map (fun f => (f j + beta)%fld) inputs) = [0; 0; 0]%fld.
Proof. exact (fun K => log_deriv_complete K). Qed.
Print Assumptions C192_log_derivative_completeness.
Example C192_nonvacuous :
  let f := fun j => cell [m13 2; m13 7; m13 7; m13 2; m13 0; m13 0] j in let g := fun j => cell [m13 7; m13 1; m13 7; m13 7; m13 0; m13 0] j in let t := fun j => cell [m13 7; m13 1; m13 2; m13 3; m13 0; m13 0] j in
  option_map (fun p => (map (zval 13) (fst p), snd p)) (create_grand_sum true 3 6 1 (fun i => m13 (Z.of_nat i)) 9 [m13 5; m13 1; m13 2; m13 0; m13 0; m13 0] [f; g] t (m13 4) []) = Some ([0; 0; 6; 9; 0; 9]%Z, 10) /\
  option_map (fun p => (map (zval 13) (fst p), snd p)) (create_grand_sum false 3 6 1 (fun i => m13 (Z.of_nat i)) 9 [m13 5; m13 1; m13 2; m13 0; m13 0; m13 0] [f; g] t (m13 4) []) = Some ([0; 0; 6; 9; 0; 9]%Z, 10).
Proof. vm_compute. auto. Qed.

(** ** C193: soundness. The multiplicities being fixed before the challenge, if at least 2 u (k + 1) challenges are accepted for k input columns (each with any grand sum), every value occurs among the usable inputs as often,
    as a field element, as the multiplicities of the rows that hold it add up to; and if no positive number up to u k is zero in the field, every usable input is in the usable table. *)
Theorem C193_log_derivative_soundness : forall (K : fld) (n u : nat) (inputs : list (nat -> K)) (table m : nat -> K) (B : list K), 0 < u < n -> NoDup B -> 2 * u * (length inputs + 1) <= length B ->
  (forall beta, In beta B -> log_deriv_accepts n u inputs table m beta) ->
  (forall v, fnat (occurrences (values_of u inputs) v) = fsum (map (fun k => if feqb (table k) v then m k else 0%fld) (seq 0 u))) /\
  ((forall c, 0 < c <= u * length inputs -> fnat c <> (0%fld : K)) -> forall f j, In f inputs -> j < u -> exists i, i < u /\ f j = table i).
Proof. exact (fun K => sound_occurrences K). Qed.
Print Assumptions C193_log_derivative_soundness.
(** Over F13, for the input column 5, 5 and the table 5, 7: eleven challenges are accepted; 2 * 2 * (1 + 1) = 8. *)
Example C193_nonvacuous :
  let f := fun _ : nat => m13 5 in let t := fun j => cell [m13 5; m13 7; m13 0; m13 0] j in let B := filter (fun b : F13 => negb (feqb (m13 5 + b)%fld 0%fld) && negb (feqb (m13 7 + b)%fld 0%fld)) all13 in
  NoDup B /\ 2 * 2 * (length [f] + 1) <= length B /\ (exists m, forall beta, In beta B -> log_deriv_accepts 4 2 [f] t m beta) /\ forall c, 0 < c <= 2 * length [f] -> fnat c <> (0%fld : F13).
Proof.
  intros f t B. split; [apply NoDup_filter, all13_nodup|]. split; [vm_compute; repeat constructor|]. split.
  - destruct (compute_m_ok F13 (zval 13) (fun x y => zp_eq 13 x y) (sort_key snd) sort_snd_ok 2 t 4 (values_of 2 [f])) as (m & Em & _). exists (cell m). intros beta Hb.
    apply filter_In in Hb. destruct Hb as [_ Hb]. apply andb_true_iff in Hb. destruct Hb as [H5 H7]. apply negb_true_iff in H5, H7. apply feqb_neq in H5, H7.
    destruct (log_deriv_complete F13 (zval 13) (sort_key snd) (fun x y => zp_eq 13 x y) sort_snd_ok true 2 4 1 (fun _ => 0%fld) 0 [f] t (values_of 2 [f]) beta []) as (m' & z & from' & Em' & _ & _ & _ & H).
    + lia.
    + discriminate.
    + lia.
    + lia.
    + reflexivity.
    + intros f' j [<-|[]] _. exists 0. split; [cbn; lia|reflexivity].
    + intros i Hi. destruct i as [|[|]]; [exact H5|exact H7|cbn in Hi; lia].
    + change (4 - (1 + 1)) with 2 in Em', H. assert (E : Some (m, repeat 0 2) = Some (m', repeat 0 2)) by (rewrite <- Em; exact Em'). injection E as <-. exists (cell z). exact H.
  - intros c Hc E. cbn [length] in Hc. assert (c = 1 \/ c = 2) as [->| ->] by lia; apply (f_equal (zval 13)) in E; vm_compute in E; discriminate.
Qed.

(** ** C194: the verifier's value. At every point where the table's and the inputs' values plus the challenge are not zero the verifier computes the values of the constraint polynomials. *)
Theorem C194_verifier_agrees : forall (K : fld) (l_first l_last l_blind s s_next m t beta : K) (f : list K), (t + beta <> 0)%fld -> (forall x, In x f -> (x + beta <> 0)%fld) ->
  verifier_terms l_first l_last l_blind s s_next m t beta f =
  Some (evaluator_terms l_first l_last (1 - (l_last + l_blind))%fld s s_next m (t + beta)%fld (map (fun x => (x + beta)%fld) f)).
Proof. exact (fun K => verifier_evaluator K). Qed.
Print Assumptions C194_verifier_agrees.
Example C194_nonvacuous : option_map (map (zval 13)) (verifier_terms (m13 2) (m13 3) (m13 4) (m13 5) (m13 6) (m13 7) (m13 8) (m13 9) [m13 1; m13 2]) = Some [10; 2; 4]%Z.
Proof. vm_compute. reflexivity. Qed.

Lemma verifier_none_case : exists (l_first l_last l_blind s s_next m t beta : F13) (f : list F13), verifier_terms l_first l_last l_blind s s_next m t beta f = None.
Proof. exists (m13 1), (m13 1), (m13 1), (m13 1), (m13 1), (m13 1), (m13 4), (m13 9), [m13 1]. apply verifier_stops. apply zp_eq. reflexivity. Qed.
Lemma verifier_value_case : exists (s s_next m t beta : F13) (f : list F13), (t + beta <> 0)%fld /\
  option_map (map (zval 13)) (verifier_terms 0%fld 0%fld 0%fld s s_next m t beta f) <>
  Some (map (zval 13) (evaluator_terms 0%fld 0%fld (1 - (0 + 0))%fld s s_next m (t + beta)%fld (map (fun x => (x + beta)%fld) f))).
Proof.
  exists (m13 1), (m13 2), (m13 3), (m13 4), (m13 5), [m13 8; m13 1]. split.
  - intros E. apply (f_equal (zval 13)) in E. vm_compute in E. discriminate.
  - vm_compute. discriminate.
Qed.
(** ** C195: the verifier on every proof. It reads an empty optional whenever the table's value at the point plus the challenge is zero; and where an input's value plus the challenge is zero it computes zero for the right side
    although the constraint polynomial has another value. *)
Theorem C195_verifier_every_proof_refuted : exists (l_first l_last l_blind s s_next m t beta : F13) (f : list F13), verifier_terms l_first l_last l_blind s s_next m t beta f = None.
Proof. exact verifier_none_case. Qed.
Print Assumptions C195_verifier_every_proof_refuted.
Theorem C195_verifier_stops : forall (K : fld) (l_first l_last l_blind s s_next m t beta : K) (f : list K), (t + beta = 0)%fld -> verifier_terms l_first l_last l_blind s s_next m t beta f = None.
Proof. exact (fun K => verifier_stops K). Qed.
Print Assumptions C195_verifier_stops.
Theorem C195_verifier_value_refuted : exists (s s_next m t beta : F13) (f : list F13), (t + beta <> 0)%fld /\
  option_map (map (zval 13)) (verifier_terms 0%fld 0%fld 0%fld s s_next m t beta f) <>
  Some (map (zval 13) (evaluator_terms 0%fld 0%fld (1 - (0 + 0))%fld s s_next m (t + beta)%fld (map (fun x => (x + beta)%fld) f))).
Proof. exact verifier_value_case. Qed.
Print Assumptions C195_verifier_value_refuted.

(** ** C196: the shuffle argument is complete. *)
Theorem C196_shuffle_completeness : forall (K : fld) (n bf : nat) (rnd : nat -> K) (from : nat) (a s : nat -> K) (gamma : K), bf + 1 < n -> let u := n - (bf + 1) in
  Permutation (map a (seq 0 u)) (map s (seq 0 u)) -> (forall j, j < u -> (s j + gamma <> 0)%fld) ->
  exists z from', shuffle_grand_product n bf rnd from gamma a s = Some (z, from') /\ length z = n /\
    forall j, j < n -> shuffle_verifier_terms (first_row j) (last_row u j) (blind_row u j) (cell z j) (cell z (next_row n j)) (a j) (s j) gamma = [0; 0; 0]%fld.
Proof. exact (fun K => shuffle_complete K). Qed.
Print Assumptions C196_shuffle_completeness.
Example C196_nonvacuous :
  let a := fun j => cell [m13 2; m13 7; m13 5; m13 0; m13 0] j in let s := fun j => cell [m13 7; m13 5; m13 2; m13 0; m13 0] j in
  Permutation (map a (seq 0 3)) (map s (seq 0 3)) /\
  option_map (fun p => (map (zval 13) (fst p), snd p)) (shuffle_grand_product 5 1 (fun i => m13 (Z.of_nat i)) 8 (m13 3) a s) = Some ([1; 7; 12; 1; 8]%Z, 9).
Proof. split; [|vm_compute; reflexivity]. cbn [map seq cell nth]. apply (perm_trans (l' := [m13 7; m13 2; m13 5])); [apply perm_swap|apply perm_skip, perm_swap]. Qed.

(** ** C197: the shuffle argument is sound, counted over the challenge: if more than 3 u challenges are accepted (each with any grand product), the usable rows of one column are a permutation of the other's. *)
Theorem C197_shuffle_soundness : forall (K : fld) (n u : nat) (a s : nat -> K) (G : list K), 0 < u < n -> NoDup G -> 3 * u < length G -> (forall gamma, In gamma G -> shuffle_accepts n u a s gamma) ->
  Permutation (map a (seq 0 u)) (map s (seq 0 u)).
Proof. exact (fun K => shuffle_sound K). Qed.
Print Assumptions C197_shuffle_soundness.
Example C197_nonvacuous :
  let a := fun j => cell [m13 2; m13 7; m13 0; m13 0] j in let s := fun j => cell [m13 7; m13 2; m13 0; m13 0] j in let G := filter (fun b : F13 => negb (feqb (m13 2 + b)%fld 0%fld) && negb (feqb (m13 7 + b)%fld 0%fld)) all13 in
  NoDup G /\ 3 * 2 < length G /\ forall gamma, In gamma G -> shuffle_accepts 4 2 a s gamma.
Proof.
  intros a s G. split; [apply NoDup_filter, all13_nodup|]. split; [vm_compute; repeat constructor|]. intros gamma Hg. apply filter_In in Hg. destruct Hg as [_ Hg]. apply andb_true_iff in Hg. destruct Hg as [H2 H7]. apply negb_true_iff in H2, H7. apply feqb_neq in H2, H7.
  destruct (shuffle_complete F13 4 1 (fun _ => 0%fld) 0 a s gamma) as (z & from' & _ & _ & H).
  - lia.
  - cbn [map seq cell nth]. apply perm_swap.
  - intros j Hj. destruct j as [|[|]]; [exact H7|exact H2|cbn in Hj; lia].
  - exists (cell z). exact H.
Qed.

Lemma shuffle_two_case : exists (y l_first l_last l_active : F13) (args : list ((F13 * F13) * (F13 * F13))) (gamma acc : F13), shuffle_evaluate y l_first l_last l_active args gamma acc = None.
Proof. exists (m13 2), (m13 1), (m13 0), (m13 1), [((m13 3, m13 4), (m13 5, m13 6)); ((m13 3, m13 4), (m13 5, m13 6))], (m13 7), (m13 8). apply shuffle_many. cbn. lia. Qed.
(** ** C198: the shuffle's terms in the quotient. With one argument the prover folds in the verifier's terms; with two or more it reads a grand product outside the vector that holds one per argument. *)
Theorem C198_shuffle_single : forall (K : fld) (y l_first l_last l_blind a s z z_next gamma acc : K),
  shuffle_evaluate y l_first l_last (1 - (l_last + l_blind))%fld [((a, s), (z, z_next))] gamma acc = Some (accumulate y acc (shuffle_verifier_terms l_first l_last l_blind z z_next a s gamma)).
Proof. exact (fun K => shuffle_one K). Qed.
Print Assumptions C198_shuffle_single.
Theorem C198_shuffle_several_stops : forall (K : fld) (y l_first l_last l_active : K) (args : list ((K * K) * (K * K))) (gamma acc : K), 2 <= length args -> shuffle_evaluate y l_first l_last l_active args gamma acc = None.
Proof. exact (fun K => shuffle_many K). Qed.
Print Assumptions C198_shuffle_several_stops.
Theorem C198_shuffle_any_number_refuted : exists (y l_first l_last l_active : F13) (args : list ((F13 * F13) * (F13 * F13))) (gamma acc : F13), shuffle_evaluate y l_first l_last l_active args gamma acc = None.
Proof. exact shuffle_two_case. Qed.
Print Assumptions C198_shuffle_any_number_refuted.
Example C198_nonvacuous : option_map (zval 13) (shuffle_evaluate (m13 2) (m13 1) (m13 0) (m13 1) [((m13 3, m13 4), (m13 5, m13 6))] (m13 7) (m13 8)) = Some 12%Z /\
  option_map (zval 13) (shuffle_evaluate (m13 2) (m13 1) (m13 0) (m13 1) [((m13 3, m13 4), (m13 5, m13 6)); ((m13 3, m13 4), (m13 5, m13 6))] (m13 7) (m13 8)) = None.
Proof. vm_compute. auto. Qed.

(** ** C199: several columns compressed into one by powers of a challenge. The prover's compression is the verifier's. For rows of w values: if for more than |S| (w - 1) challenges every compressed row of A is a compressed row of S,
    every row of A is a row of S; if for more than |A| |S| (w - 1) challenges the compressed rows are a permutation, the rows are. Terms folded into one value by powers of a challenge are all zero once the value is zero for as
    many challenges as there are terms. *)
Theorem C199_compression : forall (K : fld) (w : nat) (A S : list (list K)) (T : list K), (forall x, In x (A ++ S) -> length x = w) -> NoDup T ->
  (forall theta x, compress_verifier theta x = compress theta (x : list K)) /\
  (length S * (w - 1) < length T -> (forall theta, In theta T -> incl (map (compress theta) A) (map (compress theta) S)) -> incl A S) /\
  (length A * length S * (w - 1) < length T -> (forall theta, In theta T -> Permutation (map (compress theta) A) (map (compress theta) S)) -> Permutation A S).
Proof. exact (fun K w A S T HW N => conj (fun theta x => compress_same K x theta) (conj (fun HL => compressed_lookup K w A S T HW N HL) (fun HL => compressed_shuffle K w A S T HW N HL))). Qed.
Print Assumptions C199_compression.
Theorem C199_accumulation : forall (K : fld) (terms Y : list K), NoDup Y -> length terms <= length Y -> (forall y, In y Y -> accumulate y 0%fld terms = 0%fld) -> Forall (fun t => t = 0%fld) terms.
Proof. exact (fun K => accumulate_sound K). Qed.
Print Assumptions C199_accumulation.
Example C199_nonvacuous : let A := [[m13 1; m13 2]; [m13 3; m13 4]] in let S := [[m13 3; m13 4]; [m13 1; m13 2]] in
  (forall x, In x (A ++ S) -> length x = 2) /\ length A * length S * (2 - 1) < length all13 /\ (forall theta, In theta all13 -> Permutation (map (compress theta) A) (map (compress theta) S)) /\
  zval 13 (compress (m13 5) [m13 1; m13 2; m13 3]) = 12%Z.
Proof.
  intros A S. split; [|split; [|split]].
  - intros x [<-|[<-|[<-|[<-|[]]]]]; reflexivity.
  - vm_compute. repeat constructor.
  - intros theta _. apply perm_swap.
  - vm_compute. reflexivity.
Qed.
