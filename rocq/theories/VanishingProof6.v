(** Proofs: the quotient exists exactly when the circuit is satisfied. *)
From Coq Require Import ZArith List Arith Lia Bool Ring Field Field_theory.
From Verif Require Import Field BigIntModel ParallelizeModel SemigroupModel PolyModel PolySpec PolyProof PolyProof3 FFTModel FFTSpec FFTProof FFTProof3 FFTProof4 FFTProof5 FFTExtra
  DomainModel DomainSpec DomainProof CosetProof FriProof KzgProof2 ExprModel ExprSpec GraphModel GraphSpec GraphProof GraphExtra GrandProductModel GrandProductSpec GrandProductProof LogDerivModel LogDerivProof2
  LogDerivSound VanishingModel VanishingSpec VanishingProof VanishingProof2 VanishingProof3 VanishingProof4 VanishingProof5.
Import ListNotations.

Section Lists.
  Variable K : fld.
  Add Field Kvan8 : (fld_theory K).
  Open Scope fld_scope.
  Lemma same_coeffs (a b : list K) xs : NoDup xs -> (length a <= length xs)%nat -> (length b <= length xs)%nat -> (forall x, In x xs -> eval a x = eval b x) -> forall i, coeff a i = coeff b i.
  Proof.
    intros HN La Lb H i. set (m := length xs) in *. set (q := map (fun i => 1 * coeff a i + (- (1)) * coeff b i) (seq 0 m)).
    assert (Hq : forall j, coeff q j = 1 * coeff a j + (- (1)) * coeff b j) by (intros j; unfold q; rewrite coeff_map_seq; destruct (Nat.ltb_spec j m); [reflexivity|]; rewrite !coeff_over by lia; ring).
    assert (Z : coeff q i = 0).
    { apply (roots_bound K xs); [exact HN|unfold q; rewrite map_length, seq_length; fold m; lia|]. intros y Hy. rewrite (eval_linear K a b q 1 (- (1)) y Hq), (H y Hy). ring. }
    rewrite Hq in Z. apply (proj1 (fsub_eq0 K _ _)). rewrite <- Z. ring.
  Qed.
  Lemma eval_zeros m (x : K) : eval (repeat 0 m) x = 0.
  Proof. induction m as [|m IH]; cbn [repeat]; [apply eval_nil|]. rewrite eval_cons, IH. ring. Qed.
  Lemma resize_eval (p : list K) n x : (length p <= n)%nat -> eval (vec_resize 0 p n) x = eval p x.
  Proof. intros HL. unfold vec_resize. rewrite firstn_all2 by exact HL. rewrite eval_app, eval_zeros. ring. Qed.
  Lemma resize_length (p : list K) n : length (vec_resize 0 p n) = n.
  Proof. unfold vec_resize. rewrite app_length, firstn_length, repeat_length. lia. Qed.
  Lemma resize_coeff (p : list K) n i : coeff (vec_resize 0 p n) i = if (i <? n)%nat then coeff p i else 0.
  Proof.
    unfold coeff, vec_resize. destruct (Nat.ltb_spec i n) as [Hi|Hi]; [|apply nth_overflow; rewrite app_length, firstn_length, repeat_length; lia].
    destruct (Nat.ltb_spec i (length p)) as [Hp|Hp].
    - rewrite app_nth1 by (rewrite firstn_length; lia). rewrite <- (firstn_skipn n p) at 2. rewrite app_nth1 by (rewrite firstn_length; lia). reflexivity.
    - rewrite app_nth2 by (rewrite firstn_length; lia). rewrite (nth_overflow p) by lia. destruct (Nat.ltb_spec (i - length (firstn n p)) (n - length p)) as [H|H]; [apply nth_repeat|apply nth_overflow; rewrite repeat_length; exact H].
  Qed.
  Lemma tab_eval (f : nat -> K) n x : eval (map f (seq 0 n)) x = fsum (map (fun j => f j * x ^ j) (seq 0 n)).
  Proof.
    rewrite (eval_coeffs K _ x n) by (rewrite map_length, seq_length; lia). apply fsum_map_ext. intros j Hj. apply in_seq in Hj. rewrite coeff_map_seq. replace (Nat.ltb j n) with true by (symmetry; apply Nat.ltb_lt; lia). reflexivity.
  Qed.
  Lemma pieces_eval n (x : K) pieces : Forall (fun p => (length p <= n)%nat) pieces ->
    eval (combine_pieces n pieces (x ^ n)) x = eval (concat (map (fun p => vec_resize 0 p n) pieces)) x.
  Proof.
    intros HF. unfold combine_pieces. rewrite (eval_ext K _ _ x (fun i => remove_high_coeff K _ i)).
    assert (H : length (fold_right (fun piece coeffs => map (fun j => cell coeffs j * x ^ n + cell piece j) (seq 0 n)) (repeat 0 n) pieces) = n /\
                eval (fold_right (fun piece coeffs => map (fun j => cell coeffs j * x ^ n + cell piece j) (seq 0 n)) (repeat 0 n) pieces) x = eval (concat (map (fun p => vec_resize 0 p n) pieces)) x).
    { induction HF as [|p ps Hp _ [IL IH]]; cbn [fold_right map concat]; [rewrite repeat_length, eval_zeros, eval_nil; auto|]. split; [rewrite map_length, seq_length; reflexivity|].
      set (A := fold_right _ _ ps) in *. rewrite eval_app, resize_length, resize_eval by exact Hp. rewrite <- IH. rewrite (eval_linear K A p _ (x ^ n) 1 x).
      - ring.
      - intros i. rewrite coeff_map_seq. unfold cell, coeff. destruct (Nat.ltb_spec i n); [ring|]. rewrite !nth_overflow by lia. ring. }
    apply H.
  Qed.
  Lemma concat_pieces n m (h : list K) a : length h = ((a + m) * n)%nat -> concat (map (fun i => slice h (i * n) n) (seq a m)) = skipn (a * n) h.
  Proof.
    revert a. induction m as [|m IH]; intros a HL; cbn [seq map concat].
    - rewrite skipn_all2 by lia. reflexivity.
    - rewrite IH by lia. unfold slice. rewrite <- (firstn_skipn n (skipn (a * n) h)) at 2. f_equal. clear. revert h. replace (S a * n)%nat with (a * n + n)%nat by lia. generalize (a * n)%nat. induction n0 as [|b IH]; intros h; [reflexivity|].
      destruct h as [|x h]; cbn [plus skipn]; [rewrite skipn_nil; reflexivity|apply IH].
  Qed.
  Lemma h_pieces_eval n m (h : list K) x : (0 < n)%nat -> length h = (n * m)%nat -> length (h_pieces n h) = m /\ Forall (fun p => length p = n) (h_pieces n h) /\
    eval (combine_pieces n (h_pieces n h) (x ^ n)) x = eval h x.
  Proof.
    intros Hn HL. unfold h_pieces. assert (E : ((length h + n - 1) / n = m)%nat) by (rewrite HL; symmetry; apply (Nat.div_unique _ n m (n - 1)); lia). rewrite E.
    assert (HF : Forall (fun p => length p = n) (map (fun i => slice h (i * n) n) (seq 0 m))).
    { apply Forall_map, Forall_forall. intros i Hi. apply in_seq in Hi. unfold slice. rewrite firstn_length, skipn_length, HL. nia. }
    split; [rewrite map_length, seq_length; reflexivity|]. split; [exact HF|]. rewrite pieces_eval by (eapply Forall_impl; [|exact HF]; cbn; lia).
    rewrite (map_ext_in _ (fun p => p)). 2:{ intros p Hp. rewrite Forall_forall in HF. rewrite <- (HF p Hp). apply resize_same. }
    rewrite map_id, (concat_pieces n m h 0) by lia. reflexivity.
  Qed.
  Lemma pieces_length n (pieces : list (list K)) : length (concat (map (fun p => vec_resize 0 p n) pieces)) = (n * length pieces)%nat.
  Proof. induction pieces as [|p ps IH]; cbn [map concat length]; [lia|]. rewrite app_length, resize_length, IH. lia. Qed.
  Lemma accumulate_zeros (y : K) l : Forall (fun v : K => v = 0) l -> accumulate y 0 l = 0.
  Proof. intros H. induction H as [|v l -> _ IH]; [reflexivity|]. unfold accumulate in *. cbn [fold_left]. replace (0 * y + 0) with (0 : K) by ring. exact IH. Qed.
  Lemma same_evals sys ch delta f l b x (ev ev' : evaluations K) : same_leaves K (ev_leaves ev) (ev_leaves ev') -> ev_products ev = ev_products ev' -> ev_nexts ev = ev_nexts ev' -> ev_lasts ev = ev_lasts ev' ->
    ev_sigmas ev = ev_sigmas ev' -> ev_lookups ev = ev_lookups ev' -> circuit_evals sys ch delta f l b x ev = circuit_evals sys ch delta f l b x ev'.
  Proof.
    intros HS H1 H2 H3 H4 H5. unfold circuit_evals. assert (HV : forall es, map (value (ev_leaves ev)) es = map (value (ev_leaves ev')) es) by (intros es; apply map_ext; intros e; apply value_same; exact HS).
    rewrite HV, H1, H2, H3, H4, H5. f_equal. f_equal.
    - f_equal. apply map_ext. destruct HS as (S1 & S2 & S3 & _). intros []; cbn [any_eval]; auto.
    - apply flat_map_ext. intros [[inp tb] [[[[z zn] a'] ap] s']]. rewrite !HV. reflexivity.
  Qed.
  (** How many constraints there are. *)
  Lemma evals_length sys ch delta f l b x (ev : evaluations K) : length (ev_products ev) = Nat.div (length (sys_columns sys) + permutation_chunk_len sys - 1) (permutation_chunk_len sys) ->
    length (ev_lasts ev) = length (ev_products ev) -> length (ev_lookups ev) = length (sys_lookups sys) -> length (circuit_evals sys ch delta f l b x ev) = number_of_constraints sys.
  Proof.
    intros H1 H2 H3. unfold circuit_evals, number_of_constraints. rewrite !app_length, map_length. rewrite <- H1 at 1. rewrite <- Nat.add_assoc. f_equal. f_equal.
    - unfold permutation_verifier_evals. destruct (ev_products ev) as [|z0 zr] eqn:Ez; [rewrite <- H1; reflexivity|]. cbv zeta. rewrite <- H1. cbn [length app]. rewrite app_length, !map_length, combine_length, seq_length, <- H1. cbn [length] in *. lia.
    - assert (HL : length (combine (sys_lookups sys) (ev_lookups ev)) = length (sys_lookups sys)) by (rewrite combine_length; lia). rewrite <- HL. generalize (combine (sys_lookups sys) (ev_lookups ev)).
      induction l0 as [|[[inp tb] [[[[z zn] a'] ap] s']] r IH]; [reflexivity|]. cbn [flat_map]. rewrite app_length, IH. cbn [lookup_verifier_evals length]. lia.
  Qed.
End Lists.

Section Main.
  Variable K : fld.
  Add Field Kvan9 : (fld_theory K).
  Open Scope fld_scope.
  Variables (adicity : nat) (root : K).
  Hypothesis Had : (adicity < 62)%nat.
  Hypothesis Hroot : primitive_root root (2 ^ adicity).
  Notation gen := (generator adicity root).
  Variables (k : nat) (d : domain K).
  Hypothesis Hk : (k <= adicity)%nat.
  Hypothesis Hk30 : (k <= 30)%nat.
  Hypothesis Hd : radix2_domain adicity root k 1 d.
  Variable threads : Z.
  Hypothesis Hth : (0 < threads < 128)%Z.
  Notation n := (2 ^ k)%nat.
  Notation w := (gen k).
  Notation L x := (lagrange_basis (coset_points 1 w n) x).
  Variable bf : nat.
  Hypothesis Hbf : (bf + 2 <= n)%nat.
  Notation u := (n - (bf + 1))%nat.
  Notation blind := (blind_at K adicity root k bf).
  Variable sys : constraint_system K.
  Variables (delta : K) (sigmas sigma_cols : list (list K)).
  Hypothesis Hsig : Forall2 (interpolates w n) sigmas sigma_cols.

  Definition T (ch : challenges K) (wit : witness K) (x : K) : list K := circuit_evals sys ch delta (L x 0) (L x u) (blind x) x (evaluations_at w n bf sigmas wit x).
  Definition Tot (ch : challenges K) (ws : list (witness K)) (x : K) : K := accumulate (ch_y ch) 0 (flat_map (fun wit => T ch wit x) ws).

  Lemma interpolates_V p c : interpolates w n p c -> c = values_on p 1 w n.
  Proof. intros [_ ->]. unfold values_on. apply map_ext. intros j. f_equal. ring. Qed.
  Lemma interpolates_map polys cols : Forall2 (interpolates w n) polys cols -> cols = map (fun p => values_on p 1 w n) polys.
  Proof. intros H. induction H as [|p c ps cs Hp _ IH]; [reflexivity|]. cbn [map]. f_equal; [apply interpolates_V; exact Hp|exact IH]. Qed.
  Lemma interpolates_short polys cols : Forall2 (interpolates w n) polys cols -> Forall (fun p => (length p <= n)%nat) polys.
  Proof. intros H. induction H as [|p c ps cs [Hp _] _ IH]; constructor; assumption. Qed.
  Lemma next_rotated j : next_row n j = rotated_row n j 1.
  Proof. unfold next_row, rotated_row. rewrite <- (Nat2Z.id (_ mod n)). f_equal. rewrite Nat2Z.inj_mod. f_equal. lia. Qed.
  Lemma prev_rotated j : prev_row n j = rotated_row n j (-1).
  Proof.
    unfold prev_row, rotated_row. rewrite <- (Nat2Z.id (_ mod n)). f_equal. rewrite Nat2Z.inj_mod. replace (Z.of_nat (j + n - 1)) with (Z.of_nat j + -1 + 1 * Z.of_nat n)%Z by lia. apply Z.mod_add. lia.
  Qed.
  Lemma last_rotated j : ((j + u) mod n = rotated_row n j (- Z.of_nat (bf + 1)))%nat.
  Proof.
    unfold rotated_row. rewrite <- (Nat2Z.id (_ mod n)). f_equal. rewrite Nat2Z.inj_mod. replace (Z.of_nat (j + u)) with (Z.of_nat j + - Z.of_nat (bf + 1) + 1 * Z.of_nat n)%Z by lia. apply Z.mod_add. lia.
  Qed.
  (** On a row of the domain the verifier's expressions are the constraints of that row. *)
  Lemma rows_at ch wit cols j : (j < n)%nat -> witness_interpolates w n wit cols -> T ch wit (w ^ j) = row_constraints sys ch delta w n bf sigma_cols cols j.
  Proof.
    intros Hj ((T1 & T2 & T3 & T4) & W2 & W3). unfold T, row_constraints. rewrite (first_on K adicity root Had Hroot k Hk bf Hbf) by exact Hj.
    rewrite (last_on K adicity root Had Hroot k Hk bf Hbf) by exact Hj. rewrite (blind_on K adicity root Had Hroot k Hk bf Hbf) by exact Hj.
    assert (E1 : forall x : K, 1 * x = x) by (intros x; ring).
    assert (Ew : forall ps (cs : list (list K)) r, Forall2 (interpolates w n) ps cs -> map (fun p => eval p (rotated w n (w ^ j) r)) ps = row_of cs (rotated_row n j r)).
    { intros ps cs r H. rewrite (interpolates_map _ _ H). rewrite (row_of_values K adicity root Had Hroot k k (conj (le_n k) Hk) Hk30 ps 1 j r Hj), E1. reflexivity. }
    assert (E0 : rotated_row n j 0 = j) by (unfold rotated_row; rewrite Z.add_0_r, Z.mod_small by lia; apply Nat2Z.id).
    apply same_evals; cbn [evaluations_at row_evaluations ev_leaves ev_products ev_nexts ev_lasts ev_sigmas ev_lookups].
    - pose proof (row_leaves_at K adicity root Had Hroot k k (conj (le_n k) Hk) Hk30 1 (wit_table wit) j Hj) as (S1 & S2 & S3 & S4 & S5). rewrite E1 in *.
      unfold table_values in *. cbn [row_leaves leaves_at v_fixed v_advice v_instance v_challenge v_selector t_fixed t_advice t_instance t_challenges] in *.
      rewrite <- (interpolates_map _ _ T1) in S1. rewrite <- (interpolates_map _ _ T2) in S2. rewrite <- (interpolates_map _ _ T3) in S3. rewrite T4 in *.
      repeat split; cbn [row_leaves leaves_at v_fixed v_advice v_instance v_challenge v_selector]; intros; auto. all: try (symmetry; auto). rewrite T4. reflexivity.
    - rewrite (Ew _ _ 0%Z W2), E0. reflexivity.
    - rewrite (Ew _ _ 1%Z W2), next_rotated. reflexivity.
    - rewrite (Ew _ _ _ W2), last_rotated. reflexivity.
    - rewrite (Ew _ _ 0%Z Hsig), E0. reflexivity.
    - assert (EE : forall p c r, interpolates w n p c -> eval p (rotated w n (w ^ j) r) = cell c (rotated_row n j r)).
      { intros p c r H. specialize (Ew [p] [c] r ltac:(constructor; [exact H|constructor])). cbn [map row_of] in Ew. injection Ew as Ew. exact Ew. }
      assert (EO : forall p c, interpolates w n p c -> eval p (w ^ j) = cell c j).
      { intros p c H. rewrite <- E0 at 2. rewrite <- (EE p c 0%Z H). f_equal. unfold rotated. rewrite Zmod_0_l. cbn [Z.to_nat fpow]. ring. }
      rewrite next_rotated, prev_rotated. induction W3 as [|[[z a] s] [[zc ac] sc] ps cs (P1 & P2 & P3) _ IH]; [reflexivity|]. cbn [map fst snd] in *. f_equal; [|exact IH].
      rewrite !(EO _ _ P1), !(EO _ _ P2), !(EO _ _ P3), (EE _ _ _ P1), (EE _ _ _ P2). reflexivity.
  Qed.

  Lemma witness_short wit cols : witness_interpolates w n wit cols -> short_witness K k wit.
  Proof.
    intros ((T1 & T2 & T3 & _) & W2 & W3). split; [split; [|split]; eapply interpolates_short; eassumption|]. split; [eapply interpolates_short; exact W2|].
    induction W3 as [|p c ps cs (P1 & P2 & P3) _ IH]; constructor; [|exact IH]. split; [apply P1|]. split; [apply P2|apply P3].
  Qed.
  Lemma degree_at_least_3 : (3 <= compute_degree sys)%nat. Proof. unfold compute_degree. lia. Qed.
  Lemma n_2 : (2 <= n)%nat. Proof. lia. Qed.
  Lemma values_exist (evals : list K) : length evals = n -> exists f, (length f <= n)%nat /\ values_on f 1 w n = evals.
  Proof.
    intros HL. pose proof (w_prim K adicity root Had Hroot k Hk bf Hbf) as Pw. exists (remove_high (tab (inverse_coeff K k w 1 evals) n)). split; [eapply Nat.le_trans; [apply remove_high_length|]; rewrite map_length, seq_length; lia|].
    apply inverse_values; auto. apply f1_neq_0.
  Qed.
  Lemma Forall2_len {A B} (R : A -> B -> Prop) l l' : Forall2 R l l' -> length l = length l'.
  Proof. intros H. induction H; cbn [length]; congruence. Qed.
  Lemma Forall2_flip {A B} (R : A -> B -> Prop) l l' : Forall2 R l l' -> Forall2 (fun b a => R a b) l' l.
  Proof. intros H. induction H; constructor; assumption. Qed.
  Lemma pf_L i : (i < n)%nat -> polyfun K (n - 1) (fun x => L x i).
  Proof.
    intros Hi. pose proof n_2 as H2. destruct (rdom_ok K adicity root k 1 d Had Hroot Hk Hd) as [Ok _].
    destruct (values_exist (map (fun j => if Nat.eqb j i then 1 else 0) (seq 0 n)) ltac:(rewrite map_length, seq_length; reflexivity)) as (f & HL & HV).
    exists f. split; [lia|]. intros x. rewrite (of_values K adicity root Had Hroot k Hk bf Hbf f _ x HL HV). symmetry. eapply (sum_one K adicity root); eauto.
  Qed.
  Lemma pf_blind : polyfun K (n - 1) blind.
  Proof.
    assert (H : forall l, (forall i, In i l -> (i < n)%nat) -> polyfun K (n - 1) (fun x => fsum (map (L x) l))).
    { induction l as [|i l IH]; intros Hl; [exact (pf_const K (n - 1) 0)|]. cbn [map fsum]. apply pf_add; [apply pf_L; apply Hl; left; reflexivity|]. apply IH. intros j Hj. apply Hl. right. exact Hj. }
    apply H. intros i Hi. apply in_seq in Hi. lia.
  Qed.
  Lemma T_degree ch wit cols : witness_interpolates w n wit cols -> polyfuns K (compute_degree sys * (n - 1)) (T ch wit).
  Proof.
    intros HW. pose proof (witness_short wit cols HW) as ((A1 & A2 & A3) & A4 & A5). unfold T.
    apply (constraints_degree K w n bf n_2 sys ch delta (fun x => L x 0) (fun x => L x u) blind); auto; [apply pf_L; lia|apply pf_L; lia|apply pf_blind|eapply interpolates_short; exact Hsig].
  Qed.
  Lemma Tot_degree ch ws cols : Forall2 (witness_interpolates w n) ws cols -> polyfun K (compute_degree sys * (n - 1)) (Tot ch ws).
  Proof.
    intros HF. unfold Tot. apply pfs_accumulate. apply (pfs_flat_map K _ (T ch)). intros wit Hwit. apply Forall2_flip in HF.
    assert (HE : exists c, witness_interpolates w n wit c). { clear -HF Hwit. induction HF as [|c a cs ws Hc _ IH]; [destruct Hwit|]. destruct Hwit as [->|Hw]; [exists c; exact Hc|apply IH; exact Hw]. }
    destruct HE as (c & Hc). apply (T_degree ch wit c Hc).
  Qed.
  Lemma rows_terms ch ws cols j : (j < n)%nat -> Forall2 (witness_interpolates w n) ws cols -> flat_map (fun wit => T ch wit (w ^ j)) ws = flat_map (fun c => row_constraints sys ch delta w n bf sigma_cols c j) cols.
  Proof. intros Hj HF. induction HF as [|a c ws0 cs Hc _ IH]; [reflexivity|]. cbn [flat_map]. rewrite IH, (rows_at ch a c j Hj Hc). reflexivity. Qed.
  (** Satisfied rows give a quotient of the right degree. *)
  Lemma quotient ch ws cols : Forall2 (witness_interpolates w n) ws cols -> Forall (satisfied sys ch delta w n bf sigma_cols) cols ->
    exists q, (length q <= n * (compute_degree sys - 1))%nat /\ forall x, Tot ch ws x = (x ^ n - 1) * eval q x.
  Proof.
    intros HF HS. pose proof n_2 as H2. destruct (Tot_degree ch ws cols HF) as (Q & LQ & EQ). pose proof (w_prim K adicity root Had Hroot k Hk bf Hbf) as Pw.
    destruct (factor K (coset_points 1 w n) Q) as (q & Lq & Eq).
    - apply (points_nodup K w 1 n Pw (f1_neq_0 K)).
    - intros x Hx. apply in_map_iff in Hx as (j & <- & Hj). apply in_seq in Hj. rewrite <- EQ. replace (1 * w ^ j) with (w ^ j) by ring. unfold Tot. rewrite (rows_terms ch ws cols j) by (auto; lia).
      apply accumulate_zeros. apply Forall_flat_map. eapply Forall_impl; [|exact HS]. intros c Hc. apply Hc. lia.
    - exists q. split.
      + rewrite Lq. unfold coset_points. rewrite map_length, seq_length. pose proof degree_at_least_3. nia.
      + intros x. rewrite EQ, Eq. rewrite (vanishing_product K 1 w n x ltac:(lia) Pw (f1_neq_0 K)), fpow_one. reflexivity.
  Qed.
  Lemma exp_two (x : K) a : exp_pow_of_two x a = x ^ (2 ^ a).
  Proof.
    unfold exp_pow_of_two. induction a as [|m IH]; [cbn [Nat.iter Nat.pow]; rewrite fpow_1; reflexivity|].
    change (Nat.iter (S m) (fun v => v * v) x) with ((Nat.iter m (fun v => v * v) x) * (Nat.iter m (fun v => v * v) x)). rewrite IH, <- fpow_add. f_equal. cbn [Nat.pow]. lia.
  Qed.
  Lemma evaluate_h_spec ch ws x : evaluate_h threads d sys bf ch delta x (map (fun wit => evaluations_at w n bf sigmas wit x) ws) =
    if feqb (x ^ n - 1) 0 then None else Some (Tot ch ws x * finv (x ^ n - 1)).
  Proof.
    unfold evaluate_h. rewrite (aux_spec K adicity root Had Hroot k d Hk Hd threads Hth bf Hbf). destruct (rdom_ok K adicity root k 1 d Had Hroot Hk Hd) as [Ok _]. rewrite (do_log _ _ _ _ _ Ok), exp_two.
    replace (flat_map (circuit_evals sys ch delta (L x 0) (L x u) (blind x) x) (map (fun wit => evaluations_at w n bf sigmas wit x) ws)) with (flat_map (fun wit => T ch wit x) ws); [reflexivity|].
    induction ws as [|a ws IH]; [reflexivity|]. cbn [map flat_map]. rewrite <- IH. reflexivity.
  Qed.

  (** ** The prover. *)
  Variables (e : nat) (ext : domain K).
  Hypothesis Hke : (k <= e <= adicity)%nat.
  Hypothesis Hext : radix2_domain adicity root e 1 ext.
  Variable zeta : K.
  Hypothesis Hz3 : zeta * zeta * zeta = 1.
  Hypothesis Hz1 : zeta <> 1.
  Variables (small : bool) (sched : scheduler) (it it_ext : item K).
  Hypothesis Hsched : schedules sched.
  Hypothesis Hit : complete_item small false k (gen k) it.
  Variable small_ext : bool.
  Hypothesis Hit_ext : complete_item small_ext false e (gen e) it_ext.

  Lemma graphs_exist wit : shaped sys n sigmas wit -> exists Gg Gs, construct_gates (sys_gates sys) empty_graph = Some Gg /\ lookup_graphs sys = Some Gs.
  Proof.
    intros (S1 & S2 & _). pose proof n_2 as H2. assert (H30 : (Z.of_nat n <= 2 ^ 30)%Z) by (rewrite Nat2Z.inj_pow; apply Z.pow_le_mono_r; lia).
    set (t := table_values K adicity root k 1 (wit_table wit)). pose proof (table_of_values K adicity root k 1 (wit_table wit)) as Ht. fold t in Ht.
    assert (HI : forall e0, in_table (wit_table wit) n e0 -> in_table t n e0) by (intros e0; apply (in_table_values K adicity root k k (conj (le_n k) Hk) threads Hth)).
    destruct (gates_graph K t n Ht H30 ltac:(lia) (sys_gates sys)) as (G & E & _); [eapply Forall_impl; [|exact S1]; exact HI|]. exists G.
    assert (HL : exists Gs, lookup_graphs sys = Some Gs); [|destruct HL as (Gs & ->); exists Gs; auto]. unfold lookup_graphs. revert S2. generalize (sys_lookups sys). induction l as [|l ls IH]; intros S2; [exists []; reflexivity|].
    apply Forall_cons_iff in S2 as [[A B] S2]. destruct (IH S2) as (Gs & EGs). cbn [map all_some]. rewrite EGs.
    destruct (lookup_graph K t n Ht H30 ltac:(lia) (fst l) (snd l)) as (G' & EG' & _); [eapply Forall_impl; [|exact A]; exact HI|eapply Forall_impl; [|exact B]; exact HI|]. rewrite EG'. eexists. reflexivity.
  Qed.
  (** The extended circuit column, with the key of the library. *)
  Lemma column ch ws cols : ws <> [] -> Forall2 (witness_interpolates w n) ws cols -> Forall (shaped sys n sigmas) ws ->
    exists key, make_key threads sched d it bf sigmas = Some key /\
      build_extended_circuit_column threads sched d ext it sys key bf ch delta zeta ws = Some (map (fun p => Tot ch ws (zeta * gen e ^ p)) (seq 0 (2 ^ e))).
  Proof.
    intros Hne HF HS. destruct (key_spec K adicity root Had Hroot k d Hk Hd threads small sched it Hth Hsched Hit bf Hbf sigmas) as (key & EK & ES & (L1 & L2 & L3) & EV). exists key. split; [exact EK|].
    destruct ws as [|wit0 wr]; [congruence|]. pose proof HS as HS'. apply Forall_cons_iff in HS' as [HS0 _]. destruct (graphs_exist wit0 HS0) as (Gg & Gs & EG & EGs).
    rewrite (extended_circuit_column K adicity root Had Hroot k e d ext Hke Hk30 Hd Hext threads small sched it Hth Hsched Hit sys ch delta bf ltac:(lia) key) with (blind := blind) (Gg := Gg) (Gs := Gs).
    - f_equal. apply map_ext. intros p. unfold total, Tot. f_equal. apply flat_map_ext. intros wit. unfold terms_at, T. destruct (EV (zeta * gen e ^ p)) as (-> & -> & _). rewrite ES. reflexivity.
    - split; [exact L1|]. split; [exact L2|]. split; [exact L3|]. rewrite ES. eapply interpolates_short. exact Hsig.
    - intros x. destruct (EV x) as (_ & -> & ->). reflexivity.
    - exact EG.
    - exact EGs.
    - apply (zeta_neq0 K zeta Hz3).
    - rewrite ES. apply Forall_forall. intros wit Hwit. split; [rewrite Forall_forall in HS; apply HS; exact Hwit|]. clear -HF Hwit.
      induction HF as [|a c ws0 cs Hc _ IH]; [destruct Hwit|]. destruct Hwit as [->|Hw]; [eapply witness_short; exact Hc|apply IH; exact Hw].
  Qed.
  (** Completeness. *)
  Theorem complete ch ws cols : ws <> [] -> Forall2 (witness_interpolates w n) ws cols -> Forall (shaped sys n sigmas) ws -> Forall (satisfied sys ch delta w n bf sigma_cols) cols ->
    (n * (compute_degree sys - 1) <= 2 ^ e)%nat ->
    exists key h, make_key threads sched d it bf sigmas = Some key /\ create_h threads sched d ext it it_ext sys key bf ch delta zeta ws = Some h /\
      length (h_pieces n h) = (compute_degree sys - 1)%nat /\ Forall (fun p => length p = n) (h_pieces n h) /\
      forall x, x ^ n <> 1 -> evaluate_h threads d sys bf ch delta x (map (fun wit => evaluations_at w n bf sigmas wit x) ws) = Some (eval (combine_pieces n (h_pieces n h) (x ^ n)) x).
  Proof.
    intros Hne HF HS Hsat He. pose proof n_2 as H2. destruct (column ch ws cols Hne HF HS) as (key & EK & EC). destruct (quotient ch ws cols HF Hsat) as (q & Lq & Eq).
    exists key. unfold create_h. rewrite EC. rewrite (divide_spec K adicity root Had Hroot k e d ext Hke Hd Hext zeta Hz3 Hz1 threads Hth) by (rewrite map_length, seq_length; reflexivity).
    set (evals := map _ (seq 0 (2 ^ e))). assert (LE : length evals = (2 ^ e)%nat) by (unfold evals; rewrite map_length, seq_length; reflexivity).
    destruct (to_coeff K adicity root Had Hroot k e ext Hke Hext zeta Hz3 threads Hth small_ext sched it_ext Hsched Hit_ext evals LE) as (h & -> & Lh & Vh).
    destruct (rdom_ok K adicity root k 1 d Had Hroot Hk Hd) as [Ok _]. rewrite (do_size _ _ _ _ _ Ok). set (m := (compute_degree sys - 1)%nat) in *.
    assert (EV : forall p, (p < 2 ^ e)%nat -> eval h (zeta * gen e ^ p) = eval q (zeta * gen e ^ p)).
    { intros p Hp. apply (f_equal (fun l => nth p l 0)) in Vh. unfold values_on, evals in Vh. rewrite !(nth_tab_from K) in Vh by lia. cbn [plus] in Vh. rewrite Vh. rewrite Eq.
      pose proof (coset_outside K adicity root Had Hroot k e Hke zeta Hz3 Hz1 p) as Ho. field. intros E. apply Ho. apply (proj1 (fsub_eq0 K _ _)). exact E. }
    assert (EQ : forall i, coeff h i = coeff q i).
    { apply (same_coeffs K h q (map (fun p => zeta * gen e ^ p) (seq 0 (2 ^ e)))).
      - apply points_nodup; [apply (gen_primitive K adicity root ltac:(lia) Hroot); lia|apply (zeta_neq0 K zeta Hz3)].
      - rewrite map_length, seq_length. exact Lh.
      - rewrite map_length, seq_length. lia.
      - intros x Hx. apply in_map_iff in Hx as (p & <- & Hp). apply in_seq in Hp. apply EV. lia. }
    set (H := vec_resize 0 h (n * m)). assert (ER : forall x, eval H x = eval q x).
    { intros x. apply eval_ext. intros i. unfold H. rewrite resize_coeff. destruct (Nat.ltb_spec i (n * m)); [apply EQ|]. symmetry. apply coeff_over. lia. }
    exists H. split; [exact EK|]. split; [reflexivity|]. assert (LH : length H = (n * m)%nat) by apply resize_length.
    destruct (h_pieces_eval K n m H 0 ltac:(lia) LH) as (P1 & P2 & _). split; [exact P1|]. split; [exact P2|]. intros x Hx. destruct (h_pieces_eval K n m H x ltac:(lia) LH) as (_ & _ & ->).
    rewrite evaluate_h_spec. assert (Hx' : x ^ n - 1 <> 0) by (intros E; apply Hx; apply (proj1 (fsub_eq0 K _ _)); exact E). rewrite (proj2 (feqb_neq K _ _) Hx'). f_equal. rewrite Eq, ER. field. exact Hx'.
  Qed.
  (** Soundness. *)
  Theorem sound ch ws cols Ys : Forall2 (witness_interpolates w n) ws cols -> Forall (shaped sys n sigmas) ws -> NoDup Ys -> (length ws * number_of_constraints sys <= length Ys)%nat ->
    (forall y, In y Ys -> exists pieces Xs, length pieces = (compute_degree sys - 1)%nat /\ Forall (fun p => (length p <= n)%nat) pieces /\ NoDup Xs /\ (n * compute_degree sys <= length Xs)%nat /\
      forall x, In x Xs -> evaluate_h threads d sys bf (with_y ch y) delta x (map (fun wit => evaluations_at w n bf sigmas wit x) ws) = Some (eval (combine_pieces n pieces (x ^ n)) x)) ->
    Forall (satisfied sys ch delta w n bf sigma_cols) cols.
  Proof.
    intros HF HS HN HL HY. pose proof n_2 as H2. pose proof degree_at_least_3 as D3.
    assert (HZ : forall y, In y Ys -> forall j, (j < n)%nat -> accumulate y 0 (flat_map (fun c => row_constraints sys ch delta w n bf sigma_cols c j) cols) = 0).
    { intros y Hy j Hj. destruct (HY y Hy) as (pieces & Xs & LP & HP & HX & LX & HA). destruct (Tot_degree (with_y ch y) ws cols HF) as (Q & LQ & EQ).
      set (H := concat (map (fun p => vec_resize 0 p n) pieces)). assert (LH : length H = (n * (compute_degree sys - 1))%nat) by (unfold H; rewrite pieces_length, LP; reflexivity).
      assert (HV : polyfun K (n * compute_degree sys - 1) (fun x => (x ^ n - 1) * eval H x)).
      { apply (pf_mul' K n (n * (compute_degree sys - 1) - 1)); [nia| |apply pf_eval; nia]. apply pf_sub; [|apply pf_const].
        exists (repeat 0 n ++ [1]). split; [rewrite app_length, repeat_length; cbn [length]; lia|]. intros x. rewrite eval_app, eval_zeros, repeat_length, eval_cons, eval_nil. ring. }
      destruct HV as (R & LR & ER). assert (HE : forall x, eval Q x = eval R x).
      { apply (same_function K Q R Xs HX); [nia|nia|]. intros x Hx. rewrite <- EQ, <- ER. specialize (HA x Hx). rewrite evaluate_h_spec in HA. destruct (feqb (x ^ n - 1) 0) eqn:Ez; [discriminate|].
        apply (proj1 (feqb_neq K _ _)) in Ez. injection HA as HA. rewrite pieces_eval in HA by exact HP. fold H in HA. rewrite <- HA. field. exact Ez. }
      specialize (HE (w ^ j)). rewrite <- EQ, <- ER in HE. rewrite <- fpow_mul, Nat.mul_comm, fpow_mul in HE. rewrite (proj1 (w_prim K adicity root Had Hroot k Hk bf Hbf)), fpow_one in HE.
      rewrite <- (rows_terms ch ws cols j Hj HF). transitivity (Tot (with_y ch y) ws (w ^ j)); [reflexivity|]. rewrite HE. ring. }
    assert (HA : forall j, (j < n)%nat -> Forall (fun t => t = 0) (flat_map (fun c => row_constraints sys ch delta w n bf sigma_cols c j) cols)).
    { intros j Hj. apply (accumulate_sound K _ Ys HN); [|intros y Hy; apply HZ; assumption]. etransitivity; [|exact HL]. clear -HF HS. induction HF as [|a c ws0 cs Hc _ IH]; [cbn; lia|].
      apply Forall_cons_iff in HS as [(_ & _ & _ & _ & S5 & S6) HS]. cbn [flat_map length]. rewrite app_length. specialize (IH HS). destruct Hc as (_ & W2 & W3).
      unfold row_constraints at 1. rewrite evals_length; [lia| | |]; cbn [row_evaluations ev_products ev_lasts ev_lookups]; unfold row_of; rewrite ?map_length.
      - rewrite <- (Forall2_len _ _ _ W2). exact S5.
      - reflexivity.
      - rewrite <- (Forall2_len _ _ _ W3). exact S6. }
    apply Forall_forall. intros c Hc j Hj. specialize (HA j Hj). rewrite Forall_flat_map, Forall_forall in HA. apply HA. exact Hc.
  Qed.
End Main.
