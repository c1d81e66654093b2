(** Property theorems C123, C124: the FRI-based polynomial commitment scheme.
    PcsSpec.v defines [committed] (the polynomials behind a matrix and the coset they are given on), [value_matrix], [values_at], [committable], [outside],
    [count_values] and [complete_input]; [complete_mmcs] is in FriSpec.v, [schedules] in BatchSpec.v. *)
From Coq Require Import ZArith List Bool Arith Lia.
From Verif Require Import Field Zp PolySpec FFTModel FFTSpec FFTProps DomainSpec CosetModel BatchSpec BatchProps FriModel FriSpec FriExtra PcsModel PcsTreeModel PcsSpec PcsExtra PcsExtra2.
Import ListNotations.
Open Scope nat_scope.

(** Whatever the two (complete) matrix commitment schemes, the challenger and the schedule: committing to the values of polynomials succeeds, opening them gives their values
    at the points, the proof verifies, and prover and verifier leave their challengers in the same state. *)
Theorem C123_completeness : forall (K : fld) (adicity : nat) (root shift : K) (threads : Z) (sched : scheduler) (log_blowup : nat)
    (ICom IData IPf : Type) input_commit input_matrices input_open input_verify (Com Data Pf : Type) mmcs_commit mmcs_matrix mmcs_open mmcs_verify
    (Ch Wit : Type) observe_commitment observe_value sample grind check_witness sample_bits (num_queries : nat)
    (batches : list (list (committed K))) (points : list (list (list K))) (domains : list (list (domain K))) (ch : Ch),
  adicity < 62 -> primitive_root root (2 ^ adicity) -> (0 < threads < 2 ^ 62)%Z -> schedules sched -> shift <> 0%fld -> 0 < log_blowup ->
  @complete_input K ICom IData IPf input_commit input_matrices input_open input_verify -> @complete_mmcs K Com Data Pf mmcs_commit mmcs_matrix mmcs_open mmcs_verify ->
  (forall n c, fst (sample_bits n c) < 2 ^ n) -> (forall c, check_witness c (fst (grind c)) = (true, snd (grind c))) ->
  batches <> [] -> Forall (fun b => b <> [] /\ Forall (committable adicity log_blowup) b) batches ->
  Forall2 (Forall2 (fun p zs => Forall (outside adicity root shift log_blowup p) zs)) batches points ->
  Forall2 (Forall2 (fun p d => new_coset adicity root (c_log p) (c_offset p) = Some d)) batches domains ->
  (Z.of_nat (count_values batches points) < 2 ^ 64)%Z ->
  exists commitments proof ch',
    Forall2 (fun bd cd => pcs_commit K adicity root shift threads sched log_blowup ICom IData input_commit (snd bd) (map (value_matrix adicity root) (fst bd)) = Some cd)
      (combine batches domains) commitments /\
    let opened := map (fun bp => map (fun e => map (fun z => values_at z (c_columns (fst e))) (snd e)) (combine (fst bp) (snd bp))) (combine batches points) in
    create_opening K adicity root shift threads log_blowup IData IPf input_matrices input_open Com Data Pf mmcs_commit mmcs_matrix mmcs_open
      Ch Wit observe_commitment observe_value sample grind sample_bits num_queries (map snd commitments) points ch = Some (opened, proof, ch') /\
    verify_opening K adicity root shift log_blowup ICom IPf input_verify Com Pf mmcs_verify
      Ch Wit observe_commitment observe_value sample check_witness sample_bits num_queries (map fst commitments) domains points opened proof ch = Some (true, ch').
Proof. exact pcs_complete. Qed.
Print Assumptions C123_completeness.

(** With the field Merkle tree (C55) as both commitment schemes nothing is left to assume about them. *)
Theorem C123_completeness_with_merkle_trees : forall (K : fld) (adicity : nat) (root shift : K) (threads : Z) (sched : scheduler) (log_blowup : nat)
    (P D : Type) (coords : K -> list P) (hash : list P -> D) (compress : D -> D -> D) (zero : D) (digest_eqb : D -> D -> bool)
    (Ch Wit : Type) observe_commitment observe_value sample grind check_witness sample_bits (num_queries : nat)
    (batches : list (list (committed K))) (points : list (list (list K))) (domains : list (list (domain K))) (ch : Ch),
  adicity < 62 -> primitive_root root (2 ^ adicity) -> (0 < threads < 2 ^ 62)%Z -> schedules sched -> shift <> 0%fld -> 0 < log_blowup ->
  (forall d, digest_eqb d d = true) ->
  (forall n c, fst (sample_bits n c) < 2 ^ n) -> (forall c, check_witness c (fst (grind c)) = (true, snd (grind c))) ->
  batches <> [] -> Forall (fun b => b <> [] /\ Forall (committable adicity log_blowup) b) batches ->
  Forall2 (Forall2 (fun p zs => Forall (outside adicity root shift log_blowup p) zs)) batches points ->
  Forall2 (Forall2 (fun p d => new_coset adicity root (c_log p) (c_offset p) = Some d)) batches domains ->
  (Z.of_nat (count_values batches points) < 2 ^ 64)%Z ->
  exists commitments proof ch',
    Forall2 (fun bd cd => pcs_commit K adicity root shift threads sched log_blowup _ _ (tree_commit coords hash compress zero) (snd bd) (map (value_matrix adicity root) (fst bd)) = Some cd)
      (combine batches domains) commitments /\
    let opened := map (fun bp => map (fun e => map (fun z => values_at z (c_columns (fst e))) (snd e)) (combine (fst bp) (snd bp))) (combine batches points) in
    create_opening K adicity root shift threads log_blowup _ _ tree_matrices tree_open _ _ _ (tree_commit1 coords hash compress zero) tree_matrix1 tree_open
      Ch Wit observe_commitment observe_value sample grind sample_bits num_queries (map snd commitments) points ch = Some (opened, proof, ch') /\
    verify_opening K adicity root shift log_blowup _ _ (tree_verify coords hash compress digest_eqb) _ _ (tree_verify1 coords hash compress digest_eqb)
      Ch Wit observe_commitment observe_value sample check_witness sample_bits num_queries (map fst commitments) domains points opened proof ch = Some (true, ch').
Proof.
  exact (fun K ad root sh th sched lb P D co h cp z eqb Ch Wit oc ov s g cw sb nq bs ps ds ch H1 H2 H3 H4 H5 H6 HD =>
    pcs_complete K ad root sh th sched lb _ _ _ _ _ _ _ _ _ _ _ _ _ _ Ch Wit oc ov s g cw sb nq bs ps ds ch H1 H2 H3 H4 H5 H6 (tree_complete K co h cp z eqb HD) (tree_complete1 K co h cp z eqb HD)).
Qed.
Print Assumptions C123_completeness_with_merkle_trees.

(** The opened values are not bound. In any run of the verifier, whatever is committed and whatever the proof, any value can be put in the place of any opened value
    that is not the last of its row: changing its right neighbour by a known amount gives the same result. The challenge alpha is drawn before the values are sent. *)
Theorem C124_values_not_bound_refuted : forall (K : fld) (adicity : nat) (root shift : K) (log_blowup : nat)
    (ICom IPf : Type) input_verify (Com Pf : Type) mmcs_verify (Ch Wit : Type) observe_commitment observe_value sample check_witness sample_bits (num_queries : nat)
    (commitments : list ICom) (domains : list (list (domain K))) (points : list (list (list K))) proof (ch : Ch) A B C before y next after D E F (forged : K),
  fst (sample ch) <> 0%fld ->
  exists next',
  verify_opening K adicity root shift log_blowup ICom IPf input_verify Com Pf mmcs_verify Ch Wit observe_commitment observe_value sample check_witness sample_bits num_queries
    commitments domains points (A ++ (B ++ (C ++ (before ++ forged :: next' :: after) :: D) :: E) :: F) proof ch =
  verify_opening K adicity root shift log_blowup ICom IPf input_verify Com Pf mmcs_verify Ch Wit observe_commitment observe_value sample check_witness sample_bits num_queries
    commitments domains points (A ++ (B ++ (C ++ (before ++ y :: next :: after) :: D) :: E) :: F) proof ch.
Proof.
  exact (fun K ad root sh lb ICom IPf iv Com Pf mv Ch Wit oc ov s cw sb nq coms dss zss proof ch A B C a y y2 b D E F t H =>
    ex_intro _ _ (opening_unbound K ad root sh lb ICom IPf iv Com Pf mv Ch Wit oc ov s cw sb nq coms dss zss A B C D E F a y y2 b t proof ch H)).
Qed.
Print Assumptions C124_values_not_bound_refuted.

(** A run over GF(17): two batches, matrices of 4 and 2 rows, blowup 2, two queries, a challenger that counts; the extensions are committed to on 3 * H. *)
Definition p1 : committed F17 := {| c_log := 2; c_offset := g17 1; c_columns := [[g17 5; g17 1; g17 4; g17 2]; [g17 7; g17 9]] |}.
Definition p2 : committed F17 := {| c_log := 1; c_offset := g17 6; c_columns := [[g17 3; g17 11]] |}.
Definition batches17 : list (list (committed F17)) := [[p1; p2]; [p2]].
Definition points17 : list (list (list F17)) := [[[g17 4; g17 2]; [g17 4]]; [[g17 1]]].
Definition domains17 : option (list (list (domain F17))) := all_reads (map (fun b => all_reads (map (fun p => new_coset 4 (g17 3) (c_log p) (c_offset p)) b)) batches17).
Definition commit17 (b : list (committed F17)) (ds : list (domain F17)) :=
  pcs_commit F17 4 (g17 3) (g17 3) 2 backwards 1 _ _ (toy_input_commit F17) ds (map (value_matrix 4 (g17 3)) b).
Definition sample17 (ch : nat) : F17 * nat := (g17 (Z.of_nat (1 + ch mod 16)), S ch).
Definition open17 datas (ch : nat) :=
  create_opening F17 4 (g17 3) (g17 3) 2 1 _ _ (toy_input_matrices F17) (toy_input_open F17) _ _ _ (toy_commit F17) (toy_matrix F17) (toy_open F17) nat nat
    (fun ch m => ch + length m) (fun ch v => ch + Z.to_nat (zval 17 v)) sample17 (fun ch => (ch, S ch)) (fun n ch => (ch mod 2 ^ n, S ch)) 2 datas points17 ch.
Definition verify17 coms ds values proof (ch : nat) :=
  verify_opening F17 4 (g17 3) (g17 3) 1 _ _ (toy_input_verify F17) _ _ (toy_verify F17) nat nat
    (fun ch m => ch + length m) (fun ch v => ch + Z.to_nat (zval 17 v)) sample17 (fun ch w => (ch =? w, S ch)) (fun n ch => (ch mod 2 ^ n, S ch)) 2 coms ds points17 values proof ch.
(** Put [forged] in the place of the first opened value and change its neighbour. *)
Definition forge17 (alpha forged : F17) (vss : list (list (list (list F17)))) : list (list (list (list F17))) :=
  match vss with (((y :: next :: after) :: D) :: E) :: F => (((forged :: (next - (forged - y) / alpha)%fld :: after) :: D) :: E) :: F | _ => [] end.
Definition spoil17 (forged : F17) (vss : list (list (list (list F17)))) : list (list (list (list F17))) :=
  match vss with (((y :: after) :: D) :: E) :: F => (((forged :: after) :: D) :: E) :: F | _ => [] end.
Definition run17 : option (list (list (list (list Z))) * bool * bool * bool) :=
  match domains17 with
  | Some ds =>
    match all_reads (map (fun bd => commit17 (fst bd) (snd bd)) (combine batches17 ds)) with
    | Some cds =>
      match open17 (map snd cds) 5 with
      | Some (values, proof, _) =>
        let check vs := match verify17 (map fst cds) ds vs proof 5 with Some (b, _) => b | None => false end in
        Some (map (map (map (map (zval 17)))) values, check values, check (spoil17 (g17 1) values), check (forge17 (fst (sample17 5)) (g17 1) values))
      | None => None
      end
    | None => None
    end
  | None => None
  end.
(** The values opened are those of the polynomials; they verify, a wrong value does not, the forgery of C124 does. *)
Example C123_nonvacuous_run : run17 = Some ([[[[14; 9]; [5; 8]]; [[13]]]; [[[14]]]]%Z, true, false, true).
Proof. vm_compute. reflexivity. Qed.
Example C123_nonvacuous :
  (forall n c, fst ((fun n ch => (ch mod 2 ^ n, S ch)) n c) < 2 ^ n) /\ schedules backwards /\
  complete_input (toy_input_commit F17) (toy_input_matrices F17) (toy_input_open F17) (toy_input_verify F17) /\
  complete_mmcs (toy_commit F17) (toy_matrix F17) (toy_open F17) (toy_verify F17) /\ primitive_root (g17 3) (2 ^ 4) /\ (g17 3 : F17) <> 0%fld /\
  Forall (fun b => b <> [] /\ Forall (committable 4 1) b) batches17 /\
  Forall2 (Forall2 (fun p zs => Forall (outside 4 (g17 3) (g17 3) 1 p) zs)) batches17 points17 /\
  (exists ds, Forall2 (Forall2 (fun p d => new_coset 4 (g17 3) (c_log p) (c_offset p) = Some d)) batches17 ds) /\
  (Z.of_nat (count_values batches17 points17) < 2 ^ 64)%Z.
Proof.
  assert (NZ : forall n : Z, (Z.eqb (zval 17 (g17 n)) 0 = false) -> (g17 n : F17) <> 0%fld).
  { intros n H E. apply (f_equal (zval 17)) in E. rewrite E in H. discriminate. }
  assert (P1 : committable 4 1 p1). { unfold committable. cbn [c_log c_offset c_columns p1]. split; [lia|]. split; [lia|]. split; [lia|]. split; [apply NZ; reflexivity|]. split; [discriminate|]. repeat constructor; cbn; lia. }
  assert (P2 : committable 4 1 p2). { unfold committable. cbn [c_log c_offset c_columns p2]. split; [lia|]. split; [lia|]. split; [lia|]. split; [apply NZ; reflexivity|]. split; [discriminate|]. repeat constructor; cbn; lia. }
  assert (OUT : forall (p : committed F17) (z : F17), existsb (fun x => Z.eqb (zval 17 x) (zval 17 z)) (coset_points (g17 3) (generator 4 (g17 3) (c_log p + 1)) (2 ^ (c_log p + 1))) = false -> outside 4 (g17 3) (g17 3) 1 p z).
  { intros p z H Hin. assert (existsb (fun x => Z.eqb (zval 17 x) (zval 17 z)) (coset_points (g17 3) (generator 4 (g17 3) (c_log p + 1)) (2 ^ (c_log p + 1))) = true); [|congruence].
    apply existsb_exists. exists z. split; [exact Hin|apply Z.eqb_refl]. }
  split; [intros n c; cbn [fst]; apply Nat.mod_upper_bound; pose proof (Nat.pow_nonzero 2 n); lia|].
  split; [exact backwards_ok|]. split; [apply toy_input_complete|]. split; [apply toy_complete|]. split; [exact root17|]. split; [apply NZ; reflexivity|].
  split; [repeat constructor; try discriminate; assumption|].
  split; [repeat constructor; apply OUT; vm_compute; reflexivity|].
  split.
  - assert (E : match domains17 with Some _ => true | None => false end = true) by (vm_compute; reflexivity). destruct domains17 as [ds|] eqn:ED; [|discriminate]. exists ds.
    unfold domains17, batches17 in ED. cbn [map all_reads] in ED.
    destruct (new_coset 4 (g17 3) (c_log p1) (c_offset p1)) as [d1|] eqn:E1; [|discriminate]. destruct (new_coset 4 (g17 3) (c_log p2) (c_offset p2)) as [d2|] eqn:E2; [|discriminate].
    injection ED as <-. repeat constructor; assumption.
  - vm_compute. reflexivity.
Qed.
(** The forgery of C124 in that run: alpha is not zero, the first opened row has two values. *)
Example C124_nonvacuous : (fst (sample17 5) : F17) <> 0%fld /\ match run17 with Some (vss, honest, _, forged) => nth 0 (nth 0 (nth 0 vss []) []) [] = [14; 9]%Z /\ honest = true /\ forged = true | None => False end.
Proof.
  split; [|vm_compute; repeat split; reflexivity]. intros E. apply (f_equal (zval 17)) in E. discriminate.
Qed.
