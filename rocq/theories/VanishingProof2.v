(** Proofs: a row of the evaluators on a coset is the verifier's combination at that point. *)
From Coq Require Import ZArith List Arith Lia Bool Ring Field Field_theory.
From Verif Require Import Field BigIntModel ParallelizeModel ParallelizeSpec ParallelizeProof ParallelizeExtra SemigroupModel PolyModel PolySpec PolyProof PolyProof3 FFTModel FFTSpec FFTProof3 FFTProof4 FFTProof5 FFTExtra
  DomainModel DomainSpec DomainProof CosetProof FriProof KzgProof2 ExprModel ExprSpec GraphModel GraphSpec GraphProof GraphExtra GrandProductModel GrandProductSpec GrandProductProof LogDerivModel LogDerivProof2 VanishingModel VanishingSpec VanishingProof.
Import ListNotations.

Section Acc.
  Variable K : fld.
  Add Field Kvan2 : (fld_theory K).
  Open Scope fld_scope.
  Lemma accumulate_app (y a : K) l1 l2 : accumulate y a (l1 ++ l2) = accumulate y (accumulate y a l1) l2.
  Proof. unfold accumulate. apply fold_left_app. Qed.
  Lemma accumulate_cons (y a t : K) l : accumulate y a (t :: l) = accumulate y (a * y + t) l.
  Proof. reflexivity. Qed.
  Lemma accumulate_fold {A} (y : K) (f : A -> K) (l : list A) a : fold_left (fun acc p => acc * y + f p) l a = accumulate y a (map f l).
  Proof. revert a. induction l as [|x l IH]; intros a; [reflexivity|]. cbn [map fold_left]. rewrite IH. reflexivity. Qed.
  (** The value of an expression depends on its leaves only pointwise. *)
  Definition same_leaves (v v' : leaves K) : Prop :=
    (forall c r, v_fixed v c r = v_fixed v' c r) /\ (forall c r, v_advice v c r = v_advice v' c r) /\ (forall c r, v_instance v c r = v_instance v' c r) /\
    (forall i, v_challenge v i = v_challenge v' i) /\ (forall i, v_selector v i = v_selector v' i).
  Lemma value_same v v' (e : expr K) : same_leaves v v' -> value v e = value v' e.
  Proof. intros (H1 & H2 & H3 & H4 & H5). induction e; cbn [value]; congruence. Qed.
  Lemma compressed_verifier v (theta : K) es : compressed v theta es = compress_verifier theta (map (value v) es).
  Proof. unfold compressed, compress_verifier. generalize (0 : K). induction es as [|e es IH]; intros a; [reflexivity|]. cbn [fold_left map]. apply IH. Qed.
End Acc.

Section Rows.
  Variable K : fld.
  Add Field Kvan3 : (fld_theory K).
  Open Scope fld_scope.
  Variable sys : constraint_system K.
  Variable ch : challenges K.
  Variables (delta : K) (n bf : nat).
  Hypothesis Hn : (Z.of_nat n <= 2 ^ 30)%Z.
  Hypothesis Hbf : (bf + 1 < n)%nat.

  (** ** The gates. *)
  Lemma gate_rows_spec G t polys : evaluates_to t n G (fun v theta beta gamma y prev => fold_left (fun acc e => acc * y + value v e) polys prev) ->
    forall len idx inters (f : nat -> K), (idx + len <= n)%nat -> length inters = num_intermediates G ->
    gate_rows G t n ch idx inters (map f (seq idx len)) = Some (map (fun i => accumulate (ch_y ch) (f i) (map (value (row_leaves t n i)) polys)) (seq idx len)).
  Proof.
    intros HG. induction len as [|len IH]; intros idx inters f Hi HL; [reflexivity|]. cbn [seq map gate_rows]. unfold graph_inputs at 1.
    destruct (HG idx (ch_theta ch) (ch_beta ch) (ch_gamma ch) (ch_y ch) (f idx) inters ltac:(lia) HL) as (inters' & HL' & ->).
    rewrite (IH (S idx) inters' f ltac:(lia) HL'). cbn [option_map]. rewrite accumulate_fold. reflexivity.
  Qed.

  (** ** One lookup. *)
  Lemma lookup_rows_spec G t co p input table_ (blind : nat -> K) : co_table co = t ->
    evaluates_to t n G (fun v theta beta gamma y prev => (compressed v theta input + beta) * (compressed v theta table_ + gamma)) ->
    (forall i, (i < n)%nat -> cell (co_active co) i = 1 - (cell (co_last co) i + blind i)) ->
    forall len idx inters (f : nat -> K), (idx + len <= n)%nat -> length inters = num_intermediates G ->
    lookup_rows G co n ch p idx inters (map f (seq idx len)) =
    Some (map (fun i => accumulate (ch_y ch) (f i)
      (lookup_verifier_evals (cell (co_first co) i) (cell (co_last co) i) (blind i) (ch_beta ch) (ch_gamma ch) (cell (fst (fst p)) i) (cell (fst (fst p)) (rotated_row n i 1))
         (cell (snd (fst p)) i) (cell (snd (fst p)) (rotated_row n i (-1))) (cell (snd p) i)
         (compress_verifier (ch_theta ch) (map (value (row_leaves t n i)) input)) (compress_verifier (ch_theta ch) (map (value (row_leaves t n i)) table_)))) (seq idx len)).
  Proof.
    intros Ht HG HA. destruct p as [[z a] s]. induction len as [|len IH]; intros idx inters f Hi HL; [reflexivity|]. cbn [seq map lookup_rows fst snd]. unfold graph_inputs at 1. rewrite Ht.
    destruct (HG idx (ch_theta ch) (ch_beta ch) (ch_gamma ch) (ch_y ch) 0 inters ltac:(lia) HL) as (inters' & HL' & ->).
    unfold lookup_row at 1. rewrite (to_int32_small idx n) by (try assumption; lia). rewrite !(rotation_index_spec n idx) by (try assumption; lia). rewrite !Nat2Z.id.
    cbn [fst snd] in IH. rewrite (IH (S idx) inters' f ltac:(lia) HL'). cbn [option_map]. do 2 f_equal. unfold lookup_verifier_evals. cbv zeta. unfold accumulate. cbn [fold_left].
    rewrite (HA idx ltac:(lia)). rewrite !compressed_verifier. ring.
  Qed.
  (** All lookups. *)
  Definition lookup_terms (co : cosets K) (t : table K) (blind : nat -> K) (i : nat) (q : (list (expr K) * list (expr K)) * (list K * list K * list K)) : list K :=
    let p := snd q in
    lookup_verifier_evals (cell (co_first co) i) (cell (co_last co) i) (blind i) (ch_beta ch) (ch_gamma ch) (cell (fst (fst p)) i) (cell (fst (fst p)) (rotated_row n i 1))
      (cell (snd (fst p)) i) (cell (snd (fst p)) (rotated_row n i (-1))) (cell (snd p) i)
      (compress_verifier (ch_theta ch) (map (value (row_leaves t n i)) (fst (fst q)))) (compress_verifier (ch_theta ch) (map (value (row_leaves t n i)) (snd (fst q)))).
  Lemma all_lookup_rows_spec t co (blind : nat -> K) : co_table co = t ->
    (forall i, (i < n)%nat -> cell (co_active co) i = 1 - (cell (co_last co) i + blind i)) ->
    forall (ls : list (list (expr K) * list (expr K))) Gs ps,
      Forall2 (fun l G => evaluates_to t n G (fun v theta beta gamma y prev => (compressed v theta (fst l) + beta) * (compressed v theta (snd l) + gamma))) ls Gs ->
      length ps = length ls -> forall idx len (f : nat -> K), (idx + len <= n)%nat ->
      all_lookup_rows Gs co n ch ps idx (map f (seq idx len)) = Some (map (fun i => accumulate (ch_y ch) (f i) (flat_map (lookup_terms co t blind i) (combine ls ps))) (seq idx len)).
  Proof.
    intros Ht HA ls Gs ps HF. revert ps. induction HF as [|l G ls Gs HG HF IH]; intros ps HL idx len f Hi.
    - cbn [all_lookup_rows combine flat_map]. f_equal.
    - destruct ps as [|p ps]; [discriminate|]. cbn [all_lookup_rows].
      rewrite (lookup_rows_spec G t co p (fst l) (snd l) blind Ht HG HA len idx _ f Hi (repeat_length _ _)).
      rewrite IH by (cbn in HL; lia). apply f_equal. apply map_ext. intros i. cbn [combine flat_map]. rewrite accumulate_app. reflexivity.
  Qed.

  (** ** The permutation. *)
  Lemma fold_pairs (gamma dl : K) (vs : list K) : forall acc d, fold_left (fun (st : K * K) v => let (a, dd) := st in (a * (v + dd + gamma), dd * dl)) vs (acc, d) =
    (fst (fold_left (fun (st : K * K) v => let (a, dd) := st in (a * (v + dd + gamma), dd * dl)) vs (acc, d)), d * dl ^ length vs).
  Proof.
    induction vs as [|v vs IH]; intros acc d; cbn [fold_left length]; [cbn [fst]; f_equal; cbn [fpow]; ring|]. rewrite IH. cbn [fst]. f_equal. rewrite fpow_S. ring.
  Qed.
  Lemma product_rows_spec (active x : K) len (vals sigmas zs nexts : list K) : (0 < len)%nat -> length sigmas = length vals -> length zs = Nat.div (length vals + len - 1) len -> length nexts = length zs ->
    forall m j d acc, (j + m = length zs)%nat -> ((0 < m)%nat -> d = ch_beta ch * x * delta ^ (j * len)) ->
    product_rows ch delta active len vals sigmas (combine (skipn j zs) (skipn j nexts)) j d acc =
    Some (accumulate (ch_y ch) acc (map (fun i => active * chunk_expression delta x (ch_beta ch) (ch_gamma ch) len i (cell zs i) (cell nexts i) (chunk_of vals len i) (chunk_of sigmas len i)) (seq j m))).
  Proof.
    intros Hlen Hs Hz Hx. induction m as [|m IH]; intros j d acc Hj Hd.
    - rewrite (skipn_all2 zs) by lia. reflexivity.
    - assert (Ez : skipn j zs = cell zs j :: skipn (S j) zs).
      { clear - Hj. unfold cell. revert j Hj. induction zs as [|z zs IH]; intros j Hj; [cbn in Hj; lia|]. destruct j as [|j]; [reflexivity|]. cbn [skipn nth]. apply IH. cbn in Hj. lia. }
      assert (En : skipn j nexts = cell nexts j :: skipn (S j) nexts).
      { clear - Hj Hx. rewrite <- Hx in Hj. clear Hx. unfold cell. revert j Hj. induction nexts as [|z zs' IH]; intros j Hj; [cbn in Hj; lia|]. destruct j as [|j]; [reflexivity|]. cbn [skipn nth]. apply IH. cbn in Hj. lia. }
      rewrite Ez, En. cbn [combine product_rows seq map]. rewrite accumulate_cons.
      assert (HD : (length zs * len <= length vals + len - 1)%nat) by (rewrite Hz, Nat.mul_comm; apply Nat.mul_div_le; lia).
      assert (HJ : (S j * len <= length zs * len)%nat) by (apply Nat.mul_le_mono_r; lia).
      assert (E1 : Nat.leb (length vals) (j * len) = false) by (apply Nat.leb_gt; cbn in HJ; lia). rewrite E1. cbn [orb].
      assert (E2 : length (chunk_of sigmas len j) = length (chunk_of vals len j)) by (unfold chunk_of; rewrite !firstn_length, !skipn_length, Hs; reflexivity).
      rewrite E2, Nat.ltb_irrefl. rewrite fold_pairs. cbn [fst snd].
      rewrite IH.
      + do 2 f_equal. unfold chunk_expression. rewrite <- (Hd ltac:(lia)). rewrite (fold_pairs (ch_gamma ch) delta (chunk_of vals len j) (cell zs j) d). cbv zeta. cbn [fst]. ring.
      + lia.
      + intros Hm. rewrite (Hd ltac:(lia)). assert (EL : length (chunk_of vals len j) = len).
        { unfold chunk_of. rewrite firstn_length, skipn_length. assert (S (S j) * len <= length zs * len)%nat by (apply Nat.mul_le_mono_r; lia). cbn in H. lia. }
        rewrite EL. replace (S j * len)%nat with (j * len + len)%nat by (cbn; lia). rewrite fpow_add. ring.
  Qed.

  Definition permutation_terms (co : cosets K) (x : K) (blind : nat -> K) (i : nat) : list K :=
    permutation_verifier_evals (cell (co_first co) i) (cell (co_last co) i) (blind i) delta x (ch_beta ch) (ch_gamma ch) (permutation_chunk_len sys)
      (row_of (co_products co) i) (row_of (co_products co) (rotated_row n i 1)) (row_of (co_products co) (rotated_row n i (- Z.of_nat (bf + 1))))
      (map (any_cell (co_table co) i) (sys_columns sys)) (row_of (co_sigmas co) i).
  Lemma degree_3 : (3 <= compute_degree sys)%nat. Proof. unfold compute_degree. lia. Qed.
  Lemma permutation_row_spec co (blind : nat -> K) beta_term delta_start x i acc : (i < n)%nat -> co_products co <> [] ->
    length (co_products co) = Nat.div (length (sys_columns sys) + permutation_chunk_len sys - 1) (permutation_chunk_len sys) -> length (co_sigmas co) = length (sys_columns sys) ->
    cell (co_active co) i = 1 - (cell (co_last co) i + blind i) -> delta_start * beta_term = ch_beta ch * x ->
    permutation_row sys co n bf ch delta delta_start beta_term i acc = Some (accumulate (ch_y ch) acc (permutation_terms co x blind i)).
  Proof.
    intros Hi Hne HP HS HA Hx. unfold permutation_row. rewrite (to_int32_small i n) by assumption. rewrite !(rotation_index_spec n i) by (try assumption; lia). rewrite !Nat2Z.id.
    cbv zeta. unfold permutation_terms, permutation_verifier_evals, row_of. pose proof degree_3.
    set (zs := map (fun c => cell c i) (co_products co)). set (nexts := map (fun c => cell c (rotated_row n i 1)) (co_products co)).
    change (combine zs nexts) with (combine (skipn 0 zs) (skipn 0 nexts)).
    assert (Lz : length zs = length (co_products co)) by apply map_length. assert (Ln : length nexts = length (co_products co)) by apply map_length.
    rewrite (product_rows_spec _ x _ _ _ zs nexts) with (m := length zs); rewrite ?map_length; try (unfold permutation_chunk_len; lia); try congruence.
    2:{ intros _. rewrite Hx. cbn [fpow Nat.mul]. ring. }
    rewrite HA. rewrite Lz, HP. clearbody zs nexts. destruct zs as [|z0 zr]; [destruct (co_products co); [congruence|cbn in Lz; lia]|].
    f_equal. rewrite !accumulate_app. cbn [hd tl skipn]. rewrite (accumulate_fold K (ch_y ch) (fun p : K * K => cell (co_first co) i * (fst p - snd p))). rewrite !accumulate_cons. unfold accumulate at 5. cbn [fold_left].
    do 2 f_equal. ring.
  Qed.
  Lemma permutation_rows_spec co (blind : nat -> K) (w current delta_start h : K) : co_products co <> [] ->
    length (co_products co) = Nat.div (length (sys_columns sys) + permutation_chunk_len sys - 1) (permutation_chunk_len sys) -> length (co_sigmas co) = length (sys_columns sys) ->
    (forall i, (i < n)%nat -> cell (co_active co) i = 1 - (cell (co_last co) i + blind i)) -> delta_start * current = ch_beta ch * h ->
    forall len idx (f : nat -> K), (idx + len <= n)%nat ->
    permutation_rows sys co n bf ch delta delta_start w (current * w ^ idx) idx (map f (seq idx len)) =
    Some (map (fun i => accumulate (ch_y ch) (f i) (permutation_terms co (h * w ^ i) blind i)) (seq idx len)).
  Proof.
    intros Hne HP HS HA Hx. induction len as [|len IH]; intros idx f Hi; [reflexivity|]. cbn [seq map permutation_rows].
    rewrite (permutation_row_spec co blind _ _ (h * w ^ idx) idx (f idx)) by first [assumption|lia|(apply HA; lia)|(transitivity (delta_start * current * w ^ idx); [ring|rewrite Hx; ring])].
    replace (current * w ^ idx * w) with (current * w ^ S idx) by (rewrite fpow_S; ring). rewrite IH by lia. reflexivity.
  Qed.
  Definition all_terms (gates : list (expr K)) (co : cosets K) (x : K) (blind : nat -> K) (i : nat) : list K :=
    map (value (row_leaves (co_table co) n i)) gates ++ permutation_terms co x blind i ++ flat_map (lookup_terms co (co_table co) blind i) (combine (sys_lookups sys) (co_lookups co)).
  Lemma circuit_chunk_spec Gg Gs co (blind : nat -> K) (w current delta_start h : K) (f : nat -> K) call : (0 < snd call)%Z -> (0 <= snd (fst call))%Z -> (snd (fst call) + snd call <= Z.of_nat n)%Z ->
    evaluates_to (co_table co) n Gg (fun v theta beta gamma y prev => fold_left (fun acc e => acc * y + value v e) (sys_gates sys) prev) ->
    Forall2 (fun l G => evaluates_to (co_table co) n G (fun v theta beta gamma y prev => (compressed v theta (fst l) + beta) * (compressed v theta (snd l) + gamma))) (sys_lookups sys) Gs ->
    length (co_products co) = Nat.div (length (sys_columns sys) + permutation_chunk_len sys - 1) (permutation_chunk_len sys) -> length (co_sigmas co) = length (sys_columns sys) ->
    length (co_lookups co) = length (sys_lookups sys) ->
    (forall i, (i < n)%nat -> cell (co_active co) i = 1 - (cell (co_last co) i + blind i)) -> delta_start * current = ch_beta ch * h ->
    circuit_chunk sys Gg Gs co n bf ch delta delta_start w current (map f (seq 0 n)) call =
    Some (map (fun i => accumulate (ch_y ch) (f i) (all_terms (sys_gates sys) co (h * w ^ i) blind i)) (seq (Z.to_nat (snd (fst call))) (Z.to_nat (snd call)))).
  Proof.
    destruct call as [[c start] len]. cbn [fst snd]. intros H1 H2 H3 HG HGs HP HS HL HA Hx. unfold circuit_chunk. unfold slice. rewrite (slice_tab f n) by lia.
    rewrite (gate_rows_spec Gg (co_table co) (sys_gates sys) HG) by (try apply repeat_length; lia).
    set (f1 := fun i => accumulate (ch_y ch) (f i) (map (value (row_leaves (co_table co) n i)) (sys_gates sys))).
    set (f2 := fun i => accumulate (ch_y ch) (f1 i) (permutation_terms co (h * w ^ i) blind i)).
    assert (E2 : (match co_products co with
            | [] => Some (map f1 (seq (Z.to_nat start) (Z.to_nat len)))
            | _ :: _ => permutation_rows sys co n bf ch delta delta_start w (current * do_pow 1 fmul (fun y => y * y) [start] w) (Z.to_nat start) (map f1 (seq (Z.to_nat start) (Z.to_nat len)))
            end) = Some (map f2 (seq (Z.to_nat start) (Z.to_nat len)))).
    { destruct (co_products co) as [|z zs] eqn:Ep.
      - f_equal. apply map_ext. intros i. unfold f2, permutation_terms. rewrite Ep. reflexivity.
      - rewrite do_pow_fpow by lia. rewrite <- Ep in HP. apply permutation_rows_spec; try assumption; [congruence|lia]. }
    rewrite E2. rewrite (all_lookup_rows_spec (co_table co) co blind eq_refl HA (sys_lookups sys) Gs (co_lookups co) HGs HL) by lia.
    f_equal. apply map_ext. intros i. unfold all_terms, f2, f1. rewrite !accumulate_app. reflexivity.
  Qed.
  (** A whole part. *)
  Lemma part_spec (threads : Z) Gg Gs co (blind : nat -> K) (w current delta_start h : K) (f : nat -> K) : (0 < threads < 128)%Z ->
    evaluates_to (co_table co) n Gg (fun v theta beta gamma y prev => fold_left (fun acc e => acc * y + value v e) (sys_gates sys) prev) ->
    Forall2 (fun l G => evaluates_to (co_table co) n G (fun v theta beta gamma y prev => (compressed v theta (fst l) + beta) * (compressed v theta (snd l) + gamma))) (sys_lookups sys) Gs ->
    length (co_products co) = Nat.div (length (sys_columns sys) + permutation_chunk_len sys - 1) (permutation_chunk_len sys) -> length (co_sigmas co) = length (sys_columns sys) ->
    length (co_lookups co) = length (sys_lookups sys) ->
    (forall i, (i < n)%nat -> cell (co_active co) i = 1 - (cell (co_last co) i + blind i)) -> delta_start * current = ch_beta ch * h ->
    all_chunks (map (circuit_chunk sys Gg Gs co n bf ch delta delta_start w current (map f (seq 0 n))) (chunk_calls (Z.of_nat n) (size_per_thread threads (Z.of_nat n) None))) =
    Some (map (fun i => accumulate (ch_y ch) (f i) (all_terms (sys_gates sys) co (h * w ^ i) blind i)) (seq 0 n)).
  Proof.
    intros Hth HG HGs HP HS HL HA Hx. destruct (parallelize_calls threads (Z.of_nat n) ltac:(lia) ltac:(lia) ltac:(lia)) as [HT _]. cbv zeta in HT. set (calls := chunk_calls _ _) in *.
    set (F := fun i => accumulate (ch_y ch) (f i) (all_terms (sys_gates sys) co (h * w ^ i) blind i)).
    pose proof (tiles_pointwise F calls 0%Z 0%Z _ ltac:(lia) HT) as TP. rewrite Z.sub_0_r, Nat2Z.id in TP. change (Z.to_nat 0) with 0%nat in TP. rewrite <- TP. clear TP.
    assert (HB : forall i p, (0 <= p)%Z -> tiles i p calls (Z.of_nat n) -> all_chunks (map (circuit_chunk sys Gg Gs co n bf ch delta delta_start w current (map f (seq 0 n))) calls) =
      Some (concat (map (fun c => map F (seq (Z.to_nat (snd (fst c))) (Z.to_nat (snd c)))) calls))).
    2:{ apply (HB 0%Z 0%Z); [lia|exact HT]. }
    clear HT. induction calls as [|[[i start] len] calls IH]; [reflexivity|]. intros i0 p Hp (-> & -> & Hl & HT). pose proof (tiles_le _ _ _ _ HT) as Hle. cbn [map all_chunks concat].
    rewrite (circuit_chunk_spec Gg Gs co blind w current delta_start h f (i0, p, len)) by (cbn [fst snd]; try assumption; lia). rewrite (IH (i0 + 1)%Z (p + len)%Z ltac:(lia) HT). reflexivity.
  Qed.
End Rows.
