(** Queries, rows after the usable ones, and examples. *)
From Coq Require Import List Bool Arith Lia Sorted.
From Verif Require Import WitnessModel WitnessSpec WitnessProof.
Import ListNotations.

Lemma find_key : forall F (ch : list (nat * F)) i c, NoDup (map fst ch) ->
  (option_map snd (find (fun q => Nat.eqb (fst q) i) ch) = Some c <-> In (i, c) ch).
Proof.
  intros F ch i c. induction ch as [|[k v] ch IH]; cbn [map find In fst]; intros H.
  - split; [discriminate|contradiction].
  - inversion H as [|? ? Hn Hd]; subst. destruct (Nat.eqb_spec k i) as [->|N]; cbn [option_map snd].
    + split; [intros [= ->]; auto|]. intros [[= ->]|Hin]; [reflexivity|]. destruct Hn. apply (in_map fst) in Hin. exact Hin.
    + rewrite IH by exact Hd. split; [auto|]. intros [[= E _]|Hin]; [congruence|exact Hin].
Qed.

Theorem witness_queries : forall R F (z : R) (fz : F) n cols usable phase (ch : list (nat * F)) ins cs ran w, usable <= n ->
  NoDup (map fst ch) ->
  assign_all (witness_new z n cols usable phase ch ins) cs = Finished (ran, w) ->
  (forall i c, get_challenge w i = Some c <-> In (i, c) ch) /\
  (forall j r l v, nth_error ins j = Some l -> r < usable -> nth_error l r = Some v -> query_instance fz w j r = Finished v) /\
  (forall j r l, nth_error ins j = Some l -> length l <= r < usable -> query_instance fz w j r = Finished fz) /\
  (forall j r, length ins <= j \/ usable <= r -> query_instance fz w j r = Stopped).
Proof.
  intros R F z fz n cols usable phase ch ins cs ran w Hu Hd E.
  assert (Hs0 : shaped (w_advices (witness_new z n cols usable phase ch ins)) cols n) by apply shaped_new.
  destruct (assign_all_cells _ _ _ _ _ _ _ _ Hs0 Hu E) as (_ & _ & C & I & U & _). cbn in C, I, U.
  unfold get_challenge, query_instance. rewrite C, I, U. split; [intros; apply find_key; exact Hd|].
  repeat split.
  - intros j r l v Hl Hr Hv. apply Nat.ltb_lt in Hr. rewrite Hr, Hl. cbn [negb]. f_equal. apply nth_error_nth. exact Hv.
  - intros j r l Hl [Hr Hr']. apply Nat.ltb_lt in Hr'. rewrite Hr', Hl. cbn [negb]. f_equal. apply nth_overflow. exact Hr.
  - intros j r H. destruct (Nat.ltb_spec r usable); cbn [negb]; [|reflexivity].
    destruct (nth_error ins j) eqn:E'; [|reflexivity]. assert (j < length ins) by (apply nth_error_Some; congruence). lia.
Qed.

Theorem inactive_rows_fixed : forall R F (ev : R -> F) (z : R) one n usable
    phases phase (ch : list (nat * F)) ins cs ran w j col phases' phase' (ch' : list (nat * F)) ins' cs' ran' w' j' col',
  usable < n ->
  assign_all (witness_new z n (length phases) usable phase ch ins) cs = Finished (ran, w) ->
  In (j, col) (phase_columns one ev n phase phases (w_advices w)) ->
  assign_all (witness_new z n (length phases') usable phase' ch' ins') cs' = Finished (ran', w') ->
  In (j', col') (phase_columns one ev n phase' phases' (w_advices w')) ->
  forall r, usable <= r -> nth_error col r = nth_error col' r.
Proof.
  intros R F ev z one n usable phases phase ch ins cs ran w j col phases' phase' ch' ins' cs' ran' w' j' col' Hu E H E' H' r Hr.
  destruct (committed_columns _ _ ev z one n phases usable phase ch ins cs ran w Hu E) as [_ A].
  destruct (committed_columns _ _ ev z one n phases' usable phase' ch' ins' cs' ran' w' Hu E') as [_ A'].
  destruct (A _ _ H) as (L & _ & Z & O). destruct (A' _ _ H') as (L' & _ & Z' & O').
  destruct (Nat.lt_trichotomy r (n - 1)) as [Hl|[->|Hg]].
  - rewrite Z, Z' by lia. reflexivity.
  - congruence.
  - rewrite (proj2 (nth_error_None col r)), (proj2 (nth_error_None col' r)) by lia. reflexivity.
Qed.

(** Order of the columns *)
Lemma columns_sorted_gen : forall R F (ev : R -> F) one n phase phases (adv : list (list R)) s,
  let l := flat_map (fun q => if Nat.eqb phase (fst (snd q)) then [(fst q, finish_column one ev n (snd (snd q)))] else [])
      (combine (seq s (length adv)) (combine phases adv)) in
  StronglySorted lt (map fst l) /\ Forall (fun j => s <= j) (map fst l).
Proof.
  intros R F ev one n phase phases. induction phases as [|p phases IH]; intros [|a adv] s; cbn.
  1-3: split; constructor.
  destruct (IH adv (S s)) as [H1 H2]. cbn in H1, H2.
  assert (H3 : Forall (fun j => s < j) (map fst (flat_map (fun q => if Nat.eqb phase (fst (snd q))
    then [(fst q, finish_column one ev n (snd (snd q)))] else []) (combine (seq (S s) (length adv)) (combine phases adv))))) by exact H2.
  assert (H4 : Forall (fun j => s <= j) (map fst (flat_map (fun q => if Nat.eqb phase (fst (snd q))
    then [(fst q, finish_column one ev n (snd (snd q)))] else []) (combine (seq (S s) (length adv)) (combine phases adv)))))
    by (eapply Forall_impl; [|exact H3]; cbn; intros; lia).
  destruct (Nat.eqb phase p); cbn; split; auto; constructor; auto.
Qed.
Theorem columns_sorted : forall R F (ev : R -> F) one n phase phases (adv : list (list R)),
  StronglySorted lt (map fst (phase_columns one ev n phase phases adv)).
Proof. intros. apply columns_sorted_gen. Qed.

(** Two columns, the second of the second phase; five rows, three of them usable; cells are numbers, doubled when evaluated. *)
Definition calls_ex : list (call nat) :=
  [mk_call 0 0 1 (Some 5); mk_call 1 1 9 None; mk_call 0 0 2 (Some 6); mk_call 0 0 1 (Some 7)].
Definition w_ex : witness nat nat := witness_new 0 5 2 3 0 [(4, 11)] [[1; 2]].
