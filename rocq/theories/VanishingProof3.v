(** Proofs: the extended circuit column holds the verifier's combination at every point of the extended coset. *)
From Coq Require Import ZArith List Arith Lia Bool Ring Field Field_theory.
From Verif Require Import Field BigIntModel ParallelizeModel SemigroupModel PolyModel PolySpec PolyProof PolyProof3 FFTModel FFTSpec FFTProof3 FFTProof4 FFTProof5 FFTExtra
  DomainModel DomainSpec DomainProof CosetProof FriProof KzgProof2 ExprModel ExprSpec GraphModel GraphSpec GraphProof GraphExtra GrandProductModel GrandProductSpec GrandProductProof LogDerivModel LogDerivProof2
  VanishingModel VanishingSpec VanishingProof VanishingProof2.
Import ListNotations.

Section Column.
  Variable K : fld.
  Add Field Kvan4 : (fld_theory K).
  Open Scope fld_scope.
  Variables (adicity : nat) (root : K).
  Hypothesis Had : (adicity < 62)%nat.
  Hypothesis Hroot : primitive_root root (2 ^ adicity).
  Notation gen := (generator adicity root).
  Variables (k e : nat) (d ext : domain K).
  Hypothesis Hke : (k <= e <= adicity)%nat.
  Hypothesis Hk30 : (k <= 30)%nat.
  Hypothesis Hd : radix2_domain adicity root k 1 d.
  Hypothesis Hext : radix2_domain adicity root e 1 ext.
  Variables (threads : Z) (small : bool) (sched : scheduler) (it : item K).
  Hypothesis Hth : (0 < threads < 128)%Z.
  Hypothesis Hsched : schedules sched.
  Hypothesis Hit : complete_item small false k (gen k) it.
  Notation n := (2 ^ k)%nat.
  Notation w := (gen k).

  Lemma w_order : w ^ n = 1.
  Proof. destruct (gen_primitive K adicity root ltac:(lia) Hroot k ltac:(lia)) as [H _]. exact H. Qed.
  Lemma n_pos : (0 < n)%nat. Proof. apply Nat.neq_0_lt_0, Nat.pow_nonzero. lia. Qed.
  Lemma n_30 : (Z.of_nat n <= 2 ^ 30)%Z.
  Proof. rewrite Nat2Z.inj_pow. apply Z.pow_le_mono_r; lia. Qed.
  Lemma w_mod i : w ^ (i mod n) = w ^ i.
  Proof. pose proof n_pos. rewrite (Nat.div_mod i n) at 2 by lia. rewrite fpow_add, fpow_mul, w_order, fpow_one. ring. Qed.
  Lemma w_rotated i r : w ^ rotated_row n i r = w ^ i * w ^ Z.to_nat (r mod Z.of_nat n).
  Proof.
    pose proof n_pos. rewrite <- fpow_add. rewrite <- (w_mod (i + _)). f_equal. unfold rotated_row. rewrite <- (Nat2Z.id (_ mod n)). f_equal. rewrite Nat2Z.inj_mod, Nat2Z.inj_add, Z2Nat.id by (apply Z.mod_pos_bound; lia).
    rewrite Zplus_mod_idemp_r. reflexivity.
  Qed.
  Lemma rotated_point (h : K) i r : h * w ^ rotated_row n i r = rotated w n (h * w ^ i) r.
  Proof. unfold rotated. rewrite w_rotated. ring. Qed.
  Lemma rotated_row_lt i r : (rotated_row n i r < n)%nat.
  Proof. pose proof n_pos. unfold rotated_row. pose proof (Z.mod_pos_bound (Z.of_nat i + r) (Z.of_nat n) ltac:(lia)). lia. Qed.
  Lemma rotated_0 (x : K) : rotated w n x 0 = x.
  Proof. unfold rotated. rewrite Zmod_0_l. cbn [Z.to_nat fpow]. ring. Qed.

  (** ** One column on a coset. *)
  Notation V h := (fun p : list K => values_on p h w n).
  Lemma coset_column_spec h c poly : radix2_domain adicity root k h c -> (length poly <= n)%nat -> coset_column threads sched c it poly = Some (values_on poly h w n).
  Proof.
    intros Hc HL. unfold coset_column. destruct (rdom_ok K adicity root k h c Had Hroot ltac:(lia) Hc) as [Oe Pe]. rewrite (do_size _ _ _ _ _ Oe).
    destruct (fft_correct K adicity root k h c small threads sched it poly Had Hroot ltac:(lia) Hc ltac:(lia) Hsched Hit) as [F1 [F2 _]].
    destruct poly as [|c0 poly].
    - rewrite F2. f_equal. unfold vec_resize, values_on. rewrite firstn_nil. cbn [app length]. rewrite Nat.sub_0_r. apply (zeros_values K (fun i => h * w ^ i)).
    - rewrite F1 by (auto; discriminate). f_equal. rewrite <- (resize_same 0 (values_on (c0 :: poly) h w n)) at 2. f_equal. unfold values_on. rewrite !map_length, !seq_length. reflexivity.
  Qed.
  Lemma coset_columns_spec h c polys : radix2_domain adicity root k h c -> Forall (fun p => (length p <= n)%nat) polys -> coset_columns threads sched c it polys = Some (map (V h) polys).
  Proof. intros Hc HF. unfold coset_columns. apply all_some_ext. intros p Hp. rewrite Forall_forall in HF. apply coset_column_spec; auto. Qed.
  Lemma cell_values p h i : (i < n)%nat -> cell (values_on p h w n) i = eval p (h * w ^ i).
  Proof. intros Hi. unfold values_on. apply (cell_tab K (fun i => eval p (h * w ^ i))). exact Hi. Qed.

  Definition short_table (t : table K) : Prop :=
    Forall (fun p => (length p <= n)%nat) (t_fixed t) /\ Forall (fun p => (length p <= n)%nat) (t_advice t) /\ Forall (fun p => (length p <= n)%nat) (t_instance t).
  Definition short_witness (wit : witness K) : Prop :=
    short_table (wit_table wit) /\ Forall (fun p => (length p <= n)%nat) (wit_products wit) /\
    Forall (fun l : list K * list K * list K => (length (fst (fst l)) <= n)%nat /\ (length (snd (fst l)) <= n)%nat /\ (length (snd l) <= n)%nat) (wit_lookups wit).
  Definition short_key (key : proving_key K) : Prop :=
    (length (key_first key) <= n)%nat /\ (length (key_last key) <= n)%nat /\ (length (key_active key) <= n)%nat /\ Forall (fun p => (length p <= n)%nat) (key_sigmas key).
  Definition table_values (h : K) (t : table K) : table K := {| t_fixed := map (V h) (t_fixed t); t_advice := map (V h) (t_advice t); t_instance := map (V h) (t_instance t); t_challenges := t_challenges t |}.
  Definition coset_values (h : K) (key : proving_key K) (wit : witness K) : cosets K :=
    {| co_table := table_values h (wit_table wit); co_first := V h (key_first key); co_last := V h (key_last key); co_active := V h (key_active key);
       co_sigmas := map (V h) (key_sigmas key); co_products := map (V h) (wit_products wit);
       co_lookups := map (fun l : list K * list K * list K => (V h (fst (fst l)), V h (snd (fst l)), V h (snd l))) (wit_lookups wit) |}.
  Lemma update_cosets_spec h c key wit : radix2_domain adicity root k h c -> short_key key -> short_witness wit -> update_cosets threads sched c it key wit = Some (coset_values h key wit).
  Proof.
    intros Hc (K1 & K2 & K3 & K4) ((T1 & T2 & T3) & W2 & W3). unfold update_cosets, coset_table.
    rewrite !(coset_columns_spec h c) by assumption. rewrite !(coset_column_spec h c) by assumption.
    rewrite (all_some_ext _ (fun l : list K * list K * list K => (V h (fst (fst l)), V h (snd (fst l)), V h (snd l)))); [reflexivity|].
    intros l Hl. rewrite Forall_forall in W3. destruct (W3 l Hl) as (L1 & L2 & L3). unfold coset_triple. rewrite !(coset_column_spec h c) by assumption. reflexivity.
  Qed.
  Lemma nth_map_V (cols : list (list K)) h c i : (i < n)%nat -> nth i (nth c (map (V h) cols) []) 0 = eval (nth c cols []) (h * w ^ i).
  Proof.
    intros Hi. destruct (Nat.ltb_spec c (length cols)) as [Hc|Hc].
    - rewrite (nth_indep (map (V h) cols) [] (values_on [] h w n)) by (rewrite map_length; exact Hc). rewrite (map_nth (V h) cols []). apply cell_values. exact Hi.
    - rewrite (nth_overflow cols) by exact Hc. rewrite (nth_overflow (map (V h) cols)) by (rewrite map_length; exact Hc). destruct i; reflexivity.
  Qed.
  Lemma row_leaves_at h t i : (i < n)%nat -> same_leaves K (row_leaves (table_values h t) n i) (leaves_at w n t (h * w ^ i)).
  Proof.
    intros Hi. repeat split; intros; cbn [row_leaves leaves_at v_fixed v_advice v_instance v_challenge v_selector table_values t_fixed t_advice t_instance t_challenges]; try reflexivity;
      rewrite nth_map_V by apply rotated_row_lt; rewrite rotated_point; reflexivity.
  Qed.
  Lemma map_value_at h t i es : (i < n)%nat -> map (value (row_leaves (table_values h t) n i)) es = map (value (leaves_at w n t (h * w ^ i))) es.
  Proof. intros Hi. apply map_ext. intros e0. apply value_same. apply row_leaves_at. exact Hi. Qed.
  Lemma row_of_values polys h i r : (i < n)%nat -> row_of (map (V h) polys) (rotated_row n i r) = map (fun p => eval p (rotated w n (h * w ^ i) r)) polys.
  Proof. intros Hi. unfold row_of. rewrite map_map. apply map_ext. intros p. rewrite cell_values by apply rotated_row_lt. rewrite rotated_point. reflexivity. Qed.
  Lemma rotated_row_0 i : (i < n)%nat -> rotated_row n i 0 = i.
  Proof. intros Hi. unfold rotated_row. rewrite Z.add_0_r, Z.mod_small by lia. apply Nat2Z.id. Qed.

  Lemma row_of_values_0 polys h i : (i < n)%nat -> row_of (map (V h) polys) i = map (fun p => eval p (rotated w n (h * w ^ i) 0)) polys.
  Proof. intros Hi. rewrite <- row_of_values by exact Hi. rewrite rotated_row_0 by exact Hi. reflexivity. Qed.

  Variable sys : constraint_system K.
  Variable ch : challenges K.
  Variables (delta : K) (bf : nat).
  Hypothesis Hbf : (bf + 1 < n)%nat.
  Variable key : proving_key K.
  Hypothesis Hkey : short_key key.
  Variable blind : K -> K.
  Hypothesis Hblind : forall x, eval (key_active key) x = 1 - (eval (key_last key) x + blind x).

  (** What the verifier combines at [x]. *)
  Definition terms_at (wit : witness K) (x : K) : list K :=
    circuit_evals sys ch delta (eval (key_first key) x) (eval (key_last key) x) (blind x) x (evaluations_at w n bf (key_sigmas key) wit x).
  Lemma all_terms_at h wit i : (i < n)%nat ->
    all_terms K sys ch delta n bf (sys_gates sys) (coset_values h key wit) (h * w ^ i) (fun i => blind (h * w ^ i)) i = terms_at wit (h * w ^ i).
  Proof.
    intros Hi. unfold all_terms, terms_at, circuit_evals. cbn [coset_values co_table]. rewrite map_value_at by exact Hi. f_equal. f_equal.
    - unfold permutation_terms. cbn [coset_values co_first co_last co_products co_sigmas co_table]. rewrite !cell_values by exact Hi. rewrite !row_of_values by exact Hi. rewrite !row_of_values_0 by exact Hi.
      assert (EC : map (any_cell (table_values h (wit_table wit)) i) (sys_columns sys) = map (any_eval (leaves_at w n (wit_table wit) (h * w ^ i))) (sys_columns sys)).
      { apply map_ext. intros [c|c|c]; cbn [any_cell any_eval leaves_at v_fixed v_advice v_instance table_values t_fixed t_advice t_instance]; unfold cell2; rewrite nth_map_V by exact Hi; rewrite rotated_0; reflexivity. }
      rewrite EC. reflexivity.
    - cbn [coset_values co_lookups evaluations_at ev_lookups]. generalize (sys_lookups sys) as ls. generalize (wit_lookups wit) as ps.
      induction ps as [|[[z a] s] ps IH]; intros [|[inp tab] ls]; [reflexivity|reflexivity|reflexivity|]. cbn [map combine flat_map]. f_equal; [|apply IH].
      unfold lookup_terms. cbn [fst snd coset_values co_first co_last ev_leaves evaluations_at]. rewrite !cell_values by (try apply rotated_row_lt; exact Hi). rewrite !rotated_point. rewrite !map_value_at by exact Hi. reflexivity.
  Qed.

  Definition total (ws : list (witness K)) (a x : K) : K := accumulate (ch_y ch) a (flat_map (fun wit => terms_at wit x) ws).
  Lemma total_cons wit ws a x : total (wit :: ws) a x = total ws (accumulate (ch_y ch) a (terms_at wit x)) x.
  Proof. unfold total. cbn [flat_map]. apply accumulate_app. Qed.

  Variables (Gg : graph K) (Gs : list (graph K)).
  Hypothesis HGg : construct_gates (sys_gates sys) empty_graph = Some Gg.
  Hypothesis HGs : lookup_graphs sys = Some Gs.
  Lemma in_table_values h t e0 : in_table t n e0 -> in_table (table_values h t) n e0.
  Proof. induction e0; cbn [in_table table_values t_fixed t_advice t_instance t_challenges]; rewrite ?map_length; tauto. Qed.
  Lemma table_of_values h t : table_of (table_values h t) n.
  Proof.
    repeat split; cbn [table_values t_fixed t_advice t_instance]; apply Forall_map, Forall_forall; intros p _; unfold values_on; rewrite map_length, seq_length; reflexivity.
  Qed.
  Lemma graphs_values h wit : shaped sys n (key_sigmas key) wit ->
    evaluates_to (table_values h (wit_table wit)) n Gg (fun v theta beta gamma y prev => fold_left (fun acc e => acc * y + value v e) (sys_gates sys) prev) /\
    Forall2 (fun l G => evaluates_to (table_values h (wit_table wit)) n G (fun v theta beta gamma y prev => (compressed v theta (fst l) + beta) * (compressed v theta (snd l) + gamma))) (sys_lookups sys) Gs.
  Proof.
    intros (S1 & S2 & _). split.
    - destruct (gates_graph K (table_values h (wit_table wit)) n (table_of_values h _) n_30 n_pos (sys_gates sys)) as (G & E & HG).
      { eapply Forall_impl; [|exact S1]. intros e0. apply in_table_values. }
      rewrite HGg in E. injection E as <-. exact HG.
    - clear HGg. unfold lookup_graphs in HGs. revert Gs HGs S2. generalize (sys_lookups sys) as ls. induction ls as [|l ls IH]; intros Gs0 E S2; [cbn in E; injection E as <-; constructor|].
      apply Forall_cons_iff in S2 as [[A B] S2]. cbn [map all_some] in E.
      destruct (lookup_graph K (table_values h (wit_table wit)) n (table_of_values h _) n_30 n_pos (fst l) (snd l)) as (G & EG & HG); [eapply Forall_impl; [|exact A]; intros e0; apply in_table_values|eapply Forall_impl; [|exact B]; intros e0; apply in_table_values|].
      rewrite EG in E. destruct (all_some (map _ ls)) as [Gr|] eqn:ER; [|discriminate]. injection E as <-. constructor; [exact HG|]. apply (IH Gr eq_refl S2).
  Qed.
  Lemma evaluate_circuits_spec (zeta current : K) c : radix2_domain adicity root k (zeta * current) c ->
    forall ws (f : nat -> K), Forall (fun wit => shaped sys n (key_sigmas key) wit /\ short_witness wit) ws ->
    evaluate_circuits threads sched c it sys Gg Gs key bf ch delta (ch_beta ch * zeta) w current ws (map f (seq 0 n)) =
    Some (map (fun i => total ws (f i) (zeta * current * w ^ i)) (seq 0 n)).
  Proof.
    intros Hc. induction ws as [|wit ws IH]; intros f HF; [reflexivity|]. apply Forall_cons_iff in HF as [[HS HW] HF]. cbn [evaluate_circuits].
    rewrite (update_cosets_spec (zeta * current) c key wit Hc Hkey HW). rewrite map_length, seq_length. destruct (rdom_ok K adicity root k _ c Had Hroot ltac:(lia) Hc) as [Oc _]. rewrite (do_size _ _ _ _ _ Oc).
    destruct (graphs_values (zeta * current) wit HS) as [G1 G2]. destruct HS as (_ & _ & _ & S4 & S5 & S6).
    rewrite (part_spec K sys ch delta n bf n_30 Hbf threads Gg Gs (coset_values (zeta * current) key wit) (fun i => blind (zeta * current * w ^ i)) w current (ch_beta ch * zeta) (zeta * current) f Hth G1 G2).
    - rewrite (map_ext_in _ (fun i => accumulate (ch_y ch) (f i) (terms_at wit (zeta * current * w ^ i)))).
      2:{ intros i Hi. apply in_seq in Hi. rewrite all_terms_at by lia. reflexivity. }
      rewrite IH by exact HF. f_equal. apply map_ext. intros i. rewrite total_cons. reflexivity.
    - cbn [coset_values co_products]. rewrite map_length. exact S5.
    - cbn [coset_values co_sigmas]. rewrite map_length. exact S4.
    - cbn [coset_values co_lookups]. rewrite map_length. exact S6.
    - intros i Hi. cbn [coset_values co_active co_last]. rewrite !cell_values by exact Hi. apply Hblind.
    - ring.
  Qed.

  Lemma coset_of_coset h : h <> 0 -> exists c, get_coset d h = Some c /\ radix2_domain adicity root k h c.
  Proof.
    intros Hh. destruct Hd as (d0 & E & H). assert (EG : get_coset d h = get_coset d0 h).
    { destruct H as [[_ ->]|H]; [reflexivity|]. unfold get_coset in *. destruct (feqb 1 0); [discriminate|]. injection H as <-. reflexivity. }
    rewrite EG. destruct (rdom_ok K adicity root k 1 d0 Had Hroot ltac:(lia)) as [O0 _]; [exists d0; auto|].
    destruct (get_coset_ok K k _ _ h d0 ltac:(lia) O0 Hh) as (c & Ec & _). exists c. split; [exact Ec|]. exists d0. auto.
  Qed.
  Variable zeta : K.
  Hypothesis Hz : zeta <> 0.
  Variable ws : list (witness K).
  Hypothesis Hws : Forall (fun wit => shaped sys n (key_sigmas key) wit /\ short_witness wit) ws.
  Notation g := (gen e).
  Lemma g_neq0 : g <> 0.
  Proof. apply (primitive_neq0 K g (2 ^ e)). - apply Nat.neq_0_lt_0, Nat.pow_nonzero. lia. - apply (gen_primitive K adicity root ltac:(lia) Hroot). lia. Qed.
  Lemma value_parts_spec todo c : value_parts threads sched d it sys Gg Gs key bf ch delta zeta g ws todo (g ^ c) =
    Some (map (fun p => map (fun i => total ws 0 (zeta * g ^ p * w ^ i)) (seq 0 n)) (seq c todo)).
  Proof.
    revert c. induction todo as [|todo IH]; intros c; [reflexivity|]. cbn [value_parts seq map].
    destruct (coset_of_coset (zeta * g ^ c)) as (co & -> & Hco); [apply fmul_neq0; [exact Hz|apply fpow_neq0, g_neq0]|].
    destruct (rdom_ok K adicity root k 1 d Had Hroot ltac:(lia) Hd) as [Ok _]. rewrite (do_size _ _ _ _ _ Ok), (do_gen _ _ _ _ _ Ok).
    assert (ER : forall m s, repeat (0 : K) m = map (fun _ => 0) (seq s m)) by (clear; induction m as [|m IH]; intros s; [reflexivity|]; cbn [repeat seq map]; f_equal; apply IH).
    rewrite (ER n 0%nat). rewrite (evaluate_circuits_spec zeta (g ^ c) co Hco ws (fun _ => 0) Hws).
    replace (g ^ c * g) with (g ^ S c) by (rewrite fpow_S; ring). rewrite IH. reflexivity.
  Qed.
  Lemma pow_split : (2 ^ e = 2 ^ (e - k) * n)%nat.
  Proof. rewrite <- Nat.pow_add_r. f_equal. lia. Qed.
  (** The column. *)
  Theorem extended_circuit_column : build_extended_circuit_column threads sched d ext it sys key bf ch delta zeta ws = Some (map (fun p => total ws 0 (zeta * g ^ p)) (seq 0 (2 ^ e))).
  Proof.
    unfold build_extended_circuit_column. rewrite HGg, HGs.
    destruct (rdom_ok K adicity root k 1 d Had Hroot ltac:(lia) Hd) as [Ok _]. destruct (rdom_ok K adicity root e 1 ext Had Hroot ltac:(lia) Hext) as [Oe _].
    rewrite (do_log _ _ _ _ _ Ok), (do_size _ _ _ _ _ Oe), (do_gen _ _ _ _ _ Oe). pose proof n_pos as Hn0. pose proof pow_split as Hsp.
    assert (EP : Nat.div (2 ^ e) n = (2 ^ (e - k))%nat) by (rewrite Hsp; apply Nat.div_mul; lia). rewrite EP.
    pose proof (value_parts_spec (2 ^ (e - k)) 0) as VP. cbn [fpow] in VP. rewrite VP. set (m := (2 ^ (e - k))%nat) in *.
    assert (Hm : (0 < m)%nat) by (unfold m; apply Nat.neq_0_lt_0, Nat.pow_nonzero; lia).
    unfold build_extended_column. set (parts := map _ (seq 0 m)).
    assert (HL : length parts = m) by (unfold parts; rewrite map_length, seq_length; reflexivity).
    assert (HN : forall i, (i < m)%nat -> nth_error parts i = Some (map (fun j => total ws 0 (zeta * g ^ i * w ^ j)) (seq 0 n))).
    { intros i Hi. unfold parts. apply (map_nth_error (fun p => map (fun j => total ws 0 (zeta * g ^ p * w ^ j)) (seq 0 n))). rewrite (nth_error_nth' _ 0%nat) by (rewrite seq_length; lia). rewrite seq_nth by lia. reflexivity. }
    clearbody parts. destruct parts as [|c0 rest]; [cbn in HL; lia|].
    assert (HL0 : length c0 = n). { specialize (HN 0%nat Hm). cbn in HN. injection HN as ->. rewrite map_length, seq_length. reflexivity. }
    cbv zeta. rewrite HL, HL0, <- Hsp. apply all_some_ext. intros p Hp. apply in_seq in Hp.
    assert (Hmod : (p mod m < m)%nat) by (apply Nat.mod_upper_bound; lia). rewrite (HN _ Hmod).
    assert (Hdiv : (p / m < n)%nat) by (apply Nat.div_lt_upper_bound; lia).
    rewrite (map_nth_error (fun j => total ws 0 (zeta * g ^ (p mod m) * w ^ j)) _ _ (d := Nat.div p m)).
    2:{ rewrite (nth_error_nth' _ 0%nat) by (rewrite seq_length; lia). rewrite seq_nth by lia. reflexivity. }
    do 2 f_equal. assert (EW : w = g ^ m). { unfold m. rewrite <- (gen_sub K adicity root Had e (e - k)) by lia. f_equal. lia. }
    rewrite EW, <- fpow_mul. transitivity (zeta * (g ^ (p mod m) * g ^ (m * (p / m)))); [ring|]. rewrite <- fpow_add. do 2 f_equal. rewrite (Nat.div_mod p m) at 3 by lia. lia.
  Qed.
End Column.
