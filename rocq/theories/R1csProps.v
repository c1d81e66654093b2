(** Property theorems C128-C133: rank-one constraint systems.
    R1csSpec.v defines the [value] of a linear combination, a [circuit] (the list of the calls it makes), what it [accepts], the circuits that are [proper] (they use only variables they were
    given), [rows_hold] (the matrices are satisfied), [normal] (strictly increasing variables), [sorts_terms] (any sort by variable) and [cache_after]. *)
From Coq Require Import ZArith List Bool Arith Lia.
From Verif Require Import Field Zp R1csModel R1csSpec R1csProof R1csProof4 R1csProof5 R1csExtra.
Import ListNotations.
Open Scope fld_scope.
Open Scope nat_scope.

(** The operators on linear combinations compute on the values as their names say, for terms in any order; none of them reads outside the terms, and the order is kept. *)
Theorem C128_add : forall (K : fld) (I W L : list K) (l r : lc K),
  value I W L (add_lc l r) = (value I W L l + value I W L r)%fld /\ (normal l -> normal r -> normal (add_lc l r)).
Proof. exact add_lc_spec. Qed.
Print Assumptions C128_add.
Theorem C128_sub : forall (K : fld) (I W L : list K) (l r : lc K),
  value I W L (sub_lc l r) = (value I W L l - value I W L r)%fld /\ (normal l -> normal r -> normal (sub_lc l r)).
Proof. exact sub_lc_spec. Qed.
Print Assumptions C128_sub.
Theorem C128_scale : forall (K : fld) (I W L : list K) (l : lc K) (c : K), value I W L (scale_lc l c) = (value I W L l * c)%fld.
Proof. exact value_scale. Qed.
Print Assumptions C128_scale.
Theorem C128_neg : forall (K : fld) (I W L : list K) (l : lc K), value I W L (neg_lc l) = (- value I W L l)%fld.
Proof. exact value_neg. Qed.
Print Assumptions C128_neg.
Theorem C128_add_term : forall (K : fld) (I W L : list K) (l : lc K) (t : term K),
  exists l', add_term l t = Some l' /\ value I W L l' = (value I W L l + fst t * val I W L (snd t))%fld /\ (normal l -> normal l').
Proof. exact add_term_spec. Qed.
Print Assumptions C128_add_term.
Theorem C128_sub_term : forall (K : fld) (I W L : list K) (l : lc K) (t : term K),
  exists l', sub_term l t = Some l' /\ value I W L l' = (value I W L l - fst t * val I W L (snd t))%fld /\ (normal l -> normal l').
Proof. exact sub_term_spec. Qed.
Print Assumptions C128_sub_term.
(** Deduplicate keeps the value and leaves each variable once, in order, however the sort orders equal variables. *)
Theorem C128_deduplicate : forall (K : fld) (sort : lc K -> lc K) (I W L : list K) (l : lc K), sorts_terms sort ->
  value I W L (deduplicate sort l) = value I W L l /\ normal (deduplicate sort l).
Proof. exact deduplicate_spec. Qed.
Print Assumptions C128_deduplicate.

Definition r7 (n : Z) : F7 := mkz 7 (prime_check_sound 7 eq_refl) n.
Definition show (l : lc F7) : list (Z * var) := map (fun t => (zval 7 (fst t), snd t)) l.
Definition long7 : lc F7 := [(r7 1, VOne); (r7 2, VInst 1); (r7 3, VInst 4); (r7 4, VWit 0); (r7 5, VWit 3); (r7 6, VWit 5); (r7 1, VLc 2)].
Example C128_nonvacuous : sorts_terms (@insertion_sort F7) /\
  show (deduplicate insertion_sort [(r7 3, VWit 1); (r7 2, VInst 1); (r7 5, VWit 1); (r7 1, VOne)]) = [(1%Z, VOne); (2%Z, VInst 1); (1%Z, VWit 1)] /\
  option_map show (add_term long7 (r7 4, VWit 3)) = Some (show [(r7 1, VOne); (r7 2, VInst 1); (r7 3, VInst 4); (r7 4, VWit 0); (r7 2, VWit 3); (r7 6, VWit 5); (r7 1, VLc 2)]) /\
  option_map (@length _) (option_map show (add_term long7 (r7 4, VInst 2))) = Some 8.
Proof. split; [exact insertion_sort_ok|]. repeat split. Qed.

(** After Finalize, with either optimization goal, the matrices ask of the public inputs and the witnesses exactly what the circuit asks: a satisfying assignment of the matrices satisfies
    the circuit, and an assignment the circuit accepts extends in exactly one way to the witnesses Finalize added (none for the goal kConstraints). *)
Theorem C129_matrices : forall (K : fld) (sort : lc K -> lc K) (setup construct goal : bool) (calls : circuit K),
  sorts_terms sort -> proper calls -> setup = true \/ construct = true ->
  exists s s' m, synthesize (new_cs setup construct goal) calls = Some s /\ finalize sort s = Some s' /\ to_matrices s' = Some (Some m) /\ well_shaped m /\
    m_inst m = 1 + length (instances calls) /\ length (witnesses calls) <= m_wit m /\ (goal = false -> m_wit m = length (witnesses calls)) /\
    (forall I W, length I = m_inst m -> nth 0 I 0%fld = 1%fld -> rows_hold m (I ++ W) -> accepts calls I (firstn (length (witnesses calls)) W)) /\
    (forall I W, length I = m_inst m -> nth 0 I 0%fld = 1%fld -> length W = length (witnesses calls) -> accepts calls I W ->
       exists! E, length W + length E = m_wit m /\ rows_hold m (I ++ W ++ E)).
Proof. exact finalize_matrices. Qed.
Print Assumptions C129_matrices.

(** A circuit whose first combination, of three terms, is used three times: y = c^2, c w0 = w1 + 5 for c = w0 + 2 w1 + 3. *)
Definition circuit7 (y w0 w1 : Z) : circuit F7 :=
  [NewInstance (r7 y); NewWitness (r7 w0); NewWitness (r7 w1); NewLc [(r7 1, VWit 0); (r7 2, VWit 1); (r7 3, VOne)];
   Enforce [(r7 1, VLc 0)] [(r7 1, VLc 0)] [(r7 1, VInst 1)]; Enforce [(r7 1, VLc 0)] [(r7 1, VWit 0)] [(r7 1, VWit 1); (r7 5, VOne)]].
Definition finalized (setup goal : bool) (calls : circuit F7) : option (cs F7) :=
  match synthesize (new_cs setup true goal) calls with Some s => finalize insertion_sort s | None => None end.
Definition shape (o : option (option (matrices F7))) : option (nat * nat * nat * list (list (Z * nat))) :=
  match o with Some (Some m) => Some (m_inst m, m_wit m, m_con m, map (map (fun c => (zval 7 (fst c), snd c))) (m_a m)) | _ => None end.
Example C129_nonvacuous : proper (circuit7 2 2 3) /\
  shape (match finalized true false (circuit7 2 2 3) with Some s => to_matrices s | None => None end)
    = Some (2, 2, 2, [[(3%Z, 0); (1%Z, 2); (2%Z, 3)]; [(3%Z, 0); (1%Z, 2); (2%Z, 3)]]) /\
  shape (match finalized true true (circuit7 2 2 3) with Some s => to_matrices s | None => None end)
    = Some (2, 3, 3, [[(1%Z, 4)]; [(1%Z, 4)]; [(3%Z, 0); (1%Z, 2); (2%Z, 3)]]).
Proof. split; [|split; vm_compute; reflexivity]. unfold proper, circuit7. cbn. repeat split; repeat constructor; cbn; auto; lia. Qed.

(** In prove mode the assignments are the values the callbacks returned, extended by the values of the new witnesses; IsSatisfied says whether the circuit accepts them, before Finalize and
    after it, and whether the matrices hold. *)
Theorem C130_prove_mode : forall (K : fld) (sort : lc K -> lc K) (goal : bool) (calls : circuit K), sorts_terms sort -> proper calls ->
  exists s s' m, synthesize (new_cs false true goal) calls = Some s /\ finalize sort s = Some s' /\ to_matrices s' = Some (Some m) /\ well_shaped m /\
    inst s' = 1%fld :: instances calls /\ length (wit s') = m_wit m /\ firstn (length (witnesses calls)) (wit s') = witnesses calls /\
    exists b, is_satisfied s = Some b /\ is_satisfied s' = Some b /\ (b = true <-> accepts calls (1%fld :: instances calls) (witnesses calls)) /\
      (b = true <-> rows_hold m (inst s' ++ wit s')).
Proof. exact finalize_prove_mode. Qed.
Print Assumptions C130_prove_mode.
Example C130_nonvacuous : option_map (fun s : cs F7 => (is_satisfied s, map (zval 7) (wit s))) (finalized false true (circuit7 2 2 3)) = Some (Some true, [2; 3; 4]%Z) /\
  option_map (fun s : cs F7 => (is_satisfied s, map (zval 7) (wit s))) (finalized false true (circuit7 2 3 3)) = Some (Some false, [3; 3; 5]%Z) /\
  option_map (fun s : cs F7 => (is_satisfied s, map (zval 7) (wit s))) (finalized false false (circuit7 2 2 3)) = Some (Some true, [2; 3]%Z).
Proof. repeat split; vm_compute; reflexivity. Qed.

(** Variables that circuits may use: CreateZero returns one that ToMatrices cannot place. Such a circuit is satisfiable, Finalize accepts it, and ToMatrices dereferences an empty optional. *)
Theorem C131_zero_variable_refuted : exists calls : circuit F7,
  calls = [NewWitness (r7 1); Enforce [(r7 1, VWit 0); (r7 1, VZero)] [(r7 1, VOne)] [(r7 1, VOne)]] /\
  accepts calls [r7 1] [r7 1] /\ exists s, finalized true false calls = Some s /\ to_matrices s = None.
Proof.
  exists [NewWitness (r7 1); Enforce [(r7 1, VWit 0); (r7 1, VZero)] [(r7 1, VOne)] [(r7 1, VOne)]]. split; [reflexivity|]. split.
  - unfold accepts. cbn [holds]. split; [|exact Logic.I]. apply zp_eq. vm_compute. reflexivity.
  - match goal with |- exists s, ?f = _ /\ _ => assert (H : match f with Some s => match to_matrices s with None => true | _ => false end | None => false end = true) by (vm_compute; reflexivity) end.
    destruct (finalized true false _) as [s|]; [|discriminate H]. exists s. split; [reflexivity|]. destruct (to_matrices s); [discriminate H|reflexivity].
Qed.
Print Assumptions C131_zero_variable_refuted.

(** Finalize is not idempotent: once it has removed an inlined combination, a second call indexes the vector of use counts outside its bounds. *)
Theorem C132_second_finalize_refuted : exists (calls : circuit F7) (s : cs F7), proper calls /\ finalized true false calls = Some s /\ finalize insertion_sort s = None.
Proof.
  assert (H : match finalized true false (circuit7 2 2 3) with Some s => match finalize insertion_sort s with None => true | _ => false end | None => false end = true) by (vm_compute; reflexivity).
  destruct (finalized true false (circuit7 2 2 3)) as [s|] eqn:E; [|discriminate H]. exists (circuit7 2 2 3), s. split; [exact (proj1 C129_nonvacuous)|]. split; [exact E|].
  destruct (finalize insertion_sort s); [discriminate H|reflexivity].
Qed.
Print Assumptions C132_second_finalize_refuted.

(** The cache of assigned values: however calls of the circuit and evaluations of linear combinations alternate, an evaluation returns the value of the combination. *)
Theorem C133_cache : forall (K : fld) (calls : circuit K) (c : cache_t), cache_after calls c -> proper calls ->
  exists s, synthesize (new_cs false true false) calls = Some s /\ forall i, i < length (combinations calls) ->
    exists c', cached (S (n_lc s)) (inst s) (wit s) (lc_map s) c (VLc i) = Some (nth i (combination_values (1%fld :: instances calls) (witnesses calls) [] calls) 0%fld, c').
Proof. exact cache_sound. Qed.
Print Assumptions C133_cache.
Example C133_nonvacuous : map (zval 7) (combination_values [r7 1; r7 2] [r7 2; r7 3] [] (circuit7 2 2 3)) = [4; 4; 4; 2; 4; 2; 1]%Z /\
  exists c, cache_after (circuit7 2 2 3) c /\ map fst c = [1; 0].
Proof.
  split; [vm_compute; reflexivity|].
  assert (H : match synthesize (new_cs false true false) (circuit7 2 2 3) with
              | Some s => option_map (fun p => map fst (snd p)) (cached (S (n_lc s)) (inst s) (wit s) (lc_map s) [] (VLc 1))
              | None => None
              end = Some [1; 0]) by (vm_compute; reflexivity).
  destruct (synthesize (new_cs false true false) (circuit7 2 2 3)) as [s|] eqn:E; [|discriminate H].
  destruct (cached (S (n_lc s)) (inst s) (wit s) (lc_map s) [] (VLc 1)) as [[x c]|] eqn:Q; [|discriminate H].
  exists c. split; [|cbn [option_map snd] in H; congruence]. apply (cache_query _ [] s 1 x c); [|exact E|exact Q].
  change (circuit7 2 2 3) with (((((([] ++ [NewInstance (r7 2)]) ++ [NewWitness (r7 2)]) ++ [NewWitness (r7 3)]) ++ [nth 3 (circuit7 2 2 3) (NewInstance 0%fld)]) ++
    [nth 4 (circuit7 2 2 3) (NewInstance 0%fld)]) ++ [nth 5 (circuit7 2 2 3) (NewInstance 0%fld)]).
  repeat apply cache_call. apply cache_start.
Qed.
