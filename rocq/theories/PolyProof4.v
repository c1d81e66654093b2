(** Lagrange interpolation and Fold. *)
From Coq Require Import ZArith List Bool Arith Lia Ring Field Field_theory Permutation.
From Verif Require Import Field BigIntModel ParallelizeModel ParallelizeProof ParallelizeExtra Chunked SemigroupModel SemigroupSpec SemigroupProof SemigroupExtra PolyModel PolySpec PolyProof PolyProof2 PolyProof3.
Import ListNotations.
Open Scope fld_scope.

Lemma all_some_map {A} (l : list (option A)) : forall r, Forall2 (fun o x => o = Some x) l r -> all_some l = Some r.
Proof. induction l as [|o l IH]; intros r H; inversion H; subst; cbn; [reflexivity|]. rewrite (IH l'); auto. Qed.
Lemma perm_others i n : (i < n)%nat -> Permutation (seq 0 n) (i :: filter (fun j => negb (Nat.eqb i j)) (seq 0 n)).
Proof.
  intros H. apply NoDup_Permutation.
  - apply seq_NoDup.
  - constructor; [rewrite filter_In, Nat.eqb_refl; cbn; intros [_ E]; discriminate|]. apply NoDup_filter, seq_NoDup.
  - intros x. cbn [In]. rewrite filter_In, in_seq. destruct (Nat.eqb_spec i x); cbn; intuition (try lia; try discriminate).
Qed.

Section P.
  Variable K : fld.
  Add Field KfP4 : (fld_theory K).

  Section Lagrange.
    Variable points : list K.
    Let n := length points.
    Let p i := nth i points 0.
    Definition others (i : nat) : list K := map p (filter (fun j => negb (Nat.eqb i j)) (seq 0 n)).

    Lemma others_length i : (i < n)%nat -> length (others i) = (n - 1)%nat.
    Proof.
      intros H. unfold others. rewrite map_length. pose proof (Permutation_length (perm_others i n H)) as E.
      rewrite seq_length in E. cbn [length] in E. lia.
    Qed.
    Lemma denom_loop i : fold_left (fun d j => if Nat.eqb i j then d else d * (p i - p j)) (seq 0 n) 1 = fprod (map (fun r => p i - r) (others i)).
    Proof.
      unfold others. rewrite map_map. generalize (seq 0 n). intros l.
      enough (H : forall a, fold_left (fun d j => if Nat.eqb i j then d else d * (p i - p j)) l a =
        a * fprod (map (fun j => p i - p j) (filter (fun j => negb (Nat.eqb i j)) l))) by (rewrite H; ring).
      induction l as [|j l IH]; intros a; cbn [fold_left filter map fprod]; [ring|].
      destruct (Nat.eqb i j); cbn [negb map fprod]; rewrite IH; ring.
    Qed.
    Definition denom i : K := inv_of K 1 (fprod (map (fun r => p i - r) (others i))).
    Lemma denoms_spec threads : (0 < threads)%Z -> (2 * Z.of_nat n + threads < 2 ^ 64)%Z ->
      lagrange_denoms threads points = Some (map denom (seq 0 n)).
    Proof.
      intros Ht Hb. unfold lagrange_denoms.
      set (cb := fun i c (s : list K) => _). fold n.
      assert (Hcb : forall i c s, cb i c s = map denom (seq (Z.to_nat (i * c)) (length s))).
      { intros i c s. unfold cb. 
        rewrite (do_batch_inverse_spec K 1 true _ _ eq_refl (fun _ => eq_refl)).
        rewrite map_map. rewrite <- (map_seq_shift denom). apply map_ext. intros k. fold n. unfold denom. f_equal. apply denom_loop. }
      rewrite (parallelize_pointwise denom); rewrite ?repeat_length; auto.
      intros. rewrite Hcb, map_length, seq_length. reflexivity.
    Qed.

    Definition num_step (i : nat) (ck : list K * nat) (jp : nat * K) : option (list K * nat) :=
      let '(c, k_start) := ck in let '(j, pj) := jp in
      if Nat.eqb i j then Some (c, k_start) else
      option_map (fun c => (c, (k_start + 1)%nat)) (from_roots_step c ((k_start - 1)%nat, pj)).
    Lemma num_loop i : forall jps c k, (1 <= k)%nat ->
      let fl := map snd (filter (fun jp => negb (Nat.eqb i (fst jp))) jps) in
      (k - 1 + length fl < length c)%nat -> (forall m, (k - 1 < m)%nat -> coeff c m = 0) ->
      exists c' k', ofold (num_step i) jps (c, k) = Some (c', k') /\ length c' = length c /\ forall m, coeff c' m = apply_roots K fl (coeff c) m.
    Proof.
      induction jps as [|[j pj] jps IH]; intros c k Hk; cbv zeta; intros Hl Hz.
      - exists c, k. repeat split; auto.
      - cbn [filter fst] in *. cbn [ofold]. unfold num_step at 1. destruct (Nat.eqb_spec i j) as [->|Hne]; cbn [negb] in *.
        + apply IH; auto.
        + cbn [map length snd] in *. destruct (step_spec K (k - 1) pj c ltac:(lia) Hz) as (c1 & E1 & L1 & C1 & Z1).
          rewrite E1. cbn [option_map]. destruct (IH c1 (k + 1)%nat ltac:(lia)) as (c2 & k2 & E2 & L2 & C2).
          * rewrite L1. lia.
          * intros m Hm. apply Z1. lia.
          * exists c2, k2. split; [exact E2|]. split; [congruence|]. intros m. rewrite C2. cbn. apply apply_roots_ext. exact C1.
    Qed.
    Lemma combine_seq (l : list K) s : combine (seq s (length l)) l = map (fun j => (j, nth (j - s) l 0)) (seq s (length l)).
    Proof.
      revert s. induction l as [|x l IH]; intros s; [reflexivity|]. cbn [length seq combine map]. f_equal; [rewrite Nat.sub_diag; reflexivity|].
      rewrite IH. apply map_ext_in. intros j Hj. apply in_seq in Hj. f_equal. destruct (j - s)%nat eqn:E; [lia|]. cbn. f_equal. lia.
    Qed.
    Lemma others_filter i : map snd (filter (fun jp => negb (Nat.eqb i (fst jp))) (combine (seq 0 n) points)) = others i.
    Proof.
      unfold n. rewrite combine_seq. unfold others. fold n. generalize (seq 0 n). intros l.
      induction l as [|j l IH]; [reflexivity|]. cbn [map filter fst]. destruct (negb (Nat.eqb i j)); cbn [map snd]; rewrite IH; [|reflexivity].
      rewrite Nat.sub_0_r. reflexivity.
    Qed.
    Lemma numerator_spec i : (i < n)%nat -> exists c, lagrange_numerator points i = Some c /\ length c = n /\
      forall k, coeff c k = roots_product (others i) k.
    Proof.
      intros Hi. unfold lagrange_numerator. fold n.
      assert (Hn : n = (n - 1 + 1)%nat) by lia.
      destruct (init_one K (n - 1)) as (c0 & E0 & L0 & C0). rewrite <- Hn in E0, L0. rewrite E0.
      destruct (num_loop i (combine (seq 0 n) points) c0 1 ltac:(lia)) as (c & k & E & L & C).
      - rewrite others_filter, others_length by exact Hi. lia.
      - intros m Hm. apply (coeff_one_over K c0 C0). lia.
      - change (ofold _ _ _) with (ofold (num_step i) (combine (seq 0 n) points) (c0, 1%nat)). rewrite E.
        exists c. split; [reflexivity|]. split; [lia|]. intros m. rewrite C, others_filter, apply_roots_product by exact C0.
        apply roots_product_perm. symmetry. apply Permutation_rev.
    Qed.
    (** each chunk contributes the sum of its terms *)
    Definition term_coeff (i : nat) (e : K) (m : nat) : K := roots_product (others i) m * e * denom i.
    Definition chunk_step (denoms : list K) (sum : list K) (ie : nat * K) : option (list K) :=
      let '(i, eval) := ie in
      match lagrange_numerator points i, nth_error denoms i with
      | Some c, Some denom => Some (map (fun jc => nth (fst jc) sum 0 + snd jc * eval * denom) (combine (seq 0 (length c)) c))
      | _, _ => None end.
    Lemma chunk_loop : forall chunk start sum, (start + length chunk <= n)%nat -> length sum = n ->
      exists s, ofold (chunk_step (map denom (seq 0 n))) (combine (seq start (length chunk)) chunk) sum = Some s /\ length s = n /\
        forall m, (m < n)%nat -> coeff s m = coeff sum m + fsum (map (fun ie => term_coeff (fst ie) (snd ie) m) (combine (seq start (length chunk)) chunk)).
    Proof.
      induction chunk as [|e chunk IH]; intros start sum Hl Hs; cbn [length seq combine ofold] in *.
      - exists sum. repeat split; auto. intros. cbn. ring.
      - unfold chunk_step at 1. destruct (numerator_spec start ltac:(lia)) as (c & E & L & C). rewrite E.
        rewrite nth_error_map, (nth_error_nth' _ 0%nat) by (rewrite seq_length; lia). cbn [option_map]. rewrite seq_nth by lia. cbn [plus].
        set (s1 := map (fun jc : nat * K => nth (fst jc) sum 0 + snd jc * e * denom start) (combine (seq 0 (length c)) c)).
        assert (L1 : length s1 = n) by (unfold s1; rewrite map_length, combine_length, seq_length, L; lia).
        assert (C1 : forall m, (m < n)%nat -> coeff s1 m = coeff sum m + term_coeff start e m).
        { intros m Hm. unfold s1. rewrite combine_seq, map_map. cbn [fst snd].
          rewrite (map_ext _ (fun j => coeff sum j + coeff c j * e * denom start)).
          2:{ intros j. rewrite Nat.sub_0_r. reflexivity. }
          rewrite coeff_map_seq. destruct (Nat.ltb_spec m (length c)); [|lia]. unfold term_coeff. rewrite C. reflexivity. }
        destruct (IH (S start) s1 ltac:(lia) L1) as (s2 & E2 & L2 & C2). exists s2. split; [exact E2|]. split; [exact L2|].
        intros m Hm. rewrite C2, C1 by exact Hm. cbn [map fsum fst snd]. ring.
    Qed.
    Lemma chunk_spec chunk start : (start + length chunk <= n)%nat ->
      exists s, lagrange_chunk points (map denom (seq 0 n)) start chunk = Some s /\ length s = n /\
        forall m, (m < n)%nat -> coeff s m = fsum (map (fun ie => term_coeff (fst ie) (snd ie) m) (combine (seq start (length chunk)) chunk)).
    Proof.
      intros H. destruct (chunk_loop chunk start (repeat 0 n) H (repeat_length _ _)) as (s & E & L & C).
      exists s. split; [exact E|]. split; [exact L|]. intros m Hm. rewrite C, coeff_repeat by exact Hm. ring.
    Qed.
    Lemma chunks_spec (ps : list (list K)) : forall off, (off + length (concat ps) <= n)%nat ->
      exists sums, Forall2 (fun o s => o = Some s) (chunked (fun off s => lagrange_chunk points (map denom (seq 0 n)) off s) off ps) sums /\
        Forall (fun s => length s = n) sums /\ forall m, (m < n)%nat ->
        fsum (map (fun s => coeff s m) sums) = fsum (map (fun ie => term_coeff (fst ie) (snd ie) m) (combine (seq off (length (concat ps))) (concat ps))).
    Proof.
      induction ps as [|q ps IH]; intros off H; cbn [concat chunked] in *.
      - exists []. repeat split; try constructor.
      - rewrite app_length in H. destruct (chunk_spec q off ltac:(lia)) as (s & E & L & C).
        destruct (IH (off + length q)%nat ltac:(lia)) as (ss & F1 & F2 & F3). exists (s :: ss).
        split; [constructor; auto|]. split; [constructor; auto|]. intros m Hm. cbn [map fsum]. rewrite C, F3 by exact Hm.
        rewrite app_length, seq_app. rewrite <- fsum_app, <- map_app. f_equal. f_equal.
        clear. generalize off. induction q as [|x q IH]; intros o; cbn [length seq combine app]; [rewrite Nat.add_0_r; reflexivity|].
        f_equal. replace (o + S (length q))%nat with (S o + length q)%nat by lia. apply IH.
    Qed.
    Lemma total_spec : forall (rest : list (list K)) (s0 : list K), length s0 = n -> Forall (fun s => length s = n) rest ->
      let t := fold_left (fun acc s => map (fun j => nth j acc 0 + nth j s 0) (seq 0 n)) rest s0 in
      length t = n /\ forall m, (m < n)%nat -> coeff t m = coeff s0 m + fsum (map (fun s => coeff s m) rest).
    Proof.
      induction rest as [|s rest IH]; intros s0 H0 HF; cbv zeta.
      - split; [exact H0|]. intros. cbn [fold_left map fsum]. ring.
      - inversion HF as [|? ? Hs HF']; subst. cbn [fold_left]. destruct (IH (map (fun j => nth j s0 0 + nth j s 0) (seq 0 n))) as [I1 I2].
        + rewrite map_length, seq_length. reflexivity.
        + exact HF'.
        + split; [exact I1|]. intros m Hm. rewrite I2 by exact Hm. rewrite coeff_map_seq. destruct (Nat.ltb_spec m n); [|lia]. cbn [map fsum]. unfold coeff. ring.
    Qed.
    Lemma interpolate_coeffs md threads (evals : list K) : (2 <= n)%nat -> length evals = n -> (0 < threads)%Z -> (2 * Z.of_nat n + threads < 2 ^ 64)%Z ->
      (Z.of_nat n <= md + 1)%Z ->
      exists l, lagrange_interpolate md threads points evals = Some (Some l) /\ canonical l /\ (length l <= n)%nat /\
        forall m, coeff l m = fsum (map (fun i => term_coeff i (nth i evals 0) m) (seq 0 n)).
    Proof.
      intros Hn He Ht Hb Hmd. unfold lagrange_interpolate. fold n. rewrite He, Nat.eqb_refl. cbn [negb].
      destruct evals as [|e0 [|e1 evals]]; [cbn in He; lia|cbn in He; lia|]. set (E := e0 :: e1 :: evals) in *.
      rewrite denoms_spec by auto. rewrite <- He.
      destruct (map_chunked threads None (fun i c s => lagrange_chunk points (map denom (seq 0 (length E))) (Z.to_nat (i * c)) s)
        (fun off s => lagrange_chunk points (map denom (seq 0 (length E))) off s) E Ht ltac:(rewrite He; exact Hb)) as (ps & Ec & _ & _ & EM); auto.
      rewrite EM. clear EM. rewrite He. destruct (chunks_spec ps 0) as (sums & F1 & F2 & F3); [rewrite Ec; lia|].
      rewrite (all_some_map _ _ F1). destruct sums as [|s0 rest].
      { exfalso. inversion F1 as [E1|]. destruct ps; [cbn in Ec; subst E; discriminate|]. discriminate. }
      inversion F2 as [|? ? H0 HF]; subst. destruct (total_spec rest s0 H0 HF) as [T1 T2].
      set (t := fold_left _ _ _) in *.
      rewrite dense_make_clean by (rewrite degree_eq, T1; lia).
      exists (remove_high t). split; [reflexivity|]. split; [apply remove_high_canonical|].
      split; [pose proof (remove_high_length K t); lia|].
      intros m. rewrite remove_high_coeff. destruct (lt_dec m n) as [Hm|Hm].
      - rewrite T2 by exact Hm. specialize (F3 m Hm). cbn [map fsum] in F3. rewrite F3. rewrite Ec, combine_seq, map_map.
        rewrite He. apply fsum_map_ext. intros i Hi. cbn [fst snd]. rewrite Nat.sub_0_r. reflexivity.
      - rewrite coeff_over by lia. symmetry. apply fsum_map_zero. intros i Hi. apply in_seq in Hi. unfold term_coeff.
        rewrite (proj2 (roots_product_top K (others i))); [ring|]. rewrite others_length by lia. lia.
    Qed.
    Lemma eval_sum {A} (f : A -> nat -> K) (ls : list A) (l : list K) x N : (length l <= N)%nat -> (forall m, coeff l m = fsum (map (fun a => f a m) ls)) ->
      eval l x = fsum (map (fun a => eval (map (f a) (seq 0 N)) x) ls).
    Proof.
      intros HN H. rewrite (eval_coeffs K l x N HN). rewrite (fsum_map_ext K _ (fun i => fsum (map (fun a => f a i * x ^ i) ls))).
      2:{ intros i _. rewrite H. replace (fsum (map (fun a => f a i) ls) * x ^ i) with (x ^ i * fsum (map (fun a => f a i) ls)) by ring.
          rewrite <- fsum_map_mul. apply fsum_map_ext. intros. ring. }
      rewrite fsum_swap. apply fsum_map_ext. intros a _. unfold eval. rewrite map_length, seq_length.
      apply fsum_map_ext. intros i Hi. apply in_seq in Hi. rewrite coeff_map_seq. destruct (Nat.ltb_spec i N); [reflexivity|lia].
    Qed.
    Lemma distinct_denom i : NoDup points -> (i < n)%nat -> fprod (map (fun r => p i - r) (others i)) <> 0.
    Proof.
      intros HN Hi. apply fprod_neq0. intros y Hy. apply in_map_iff in Hy. destruct Hy as (r & <- & Hr).
      unfold others in Hr. apply in_map_iff in Hr. destruct Hr as (j & <- & Hj). apply filter_In in Hj. destruct Hj as [Hj Hne].
      apply in_seq in Hj. intros E. apply (proj1 (fsub_eq0 K _ _)) in E. unfold p in E.
      rewrite (NoDup_nth points 0) in HN. specialize (HN i j Hi ltac:(fold n; lia) E). subst j. rewrite Nat.eqb_refl in Hne. discriminate.
    Qed.
    Lemma cross_zero i k : (i < n)%nat -> (k < n)%nat -> i <> k -> fprod (map (fun r => p k - r) (others i)) = 0.
    Proof.
      intros Hi Hk Hne. assert (Hin : In (p k) (others i)).
      { unfold others. apply in_map. apply filter_In. split; [apply in_seq; lia|]. destruct (Nat.eqb_spec i k); [contradiction|reflexivity]. }
      revert Hin. generalize (others i). induction l as [|r l IH]; [intros []|]. intros [E|Hin]; cbn [map fprod].
      - rewrite E. ring.
      - rewrite IH by exact Hin. ring.
    Qed.
    Lemma interpolate_values md threads (evals : list K) l : (2 <= n)%nat -> length evals = n -> (0 < threads)%Z -> (2 * Z.of_nat n + threads < 2 ^ 64)%Z ->
      (Z.of_nat n <= md + 1)%Z -> NoDup points -> lagrange_interpolate md threads points evals = Some (Some l) ->
      forall k, (k < n)%nat -> eval l (p k) = nth k evals 0.
    Proof.
      intros Hn He Ht Hb Hmd HN E k Hk. destruct (interpolate_coeffs md threads evals Hn He Ht Hb Hmd) as (l' & E' & Hc & Hl & HC).
      rewrite E in E'. injection E' as <-.
      rewrite (eval_sum _ _ _ _ n Hl HC).
      rewrite (fsum_map_ext K _ (fun i => if Nat.eqb i k then nth i evals 0 else 0)).
      - rewrite fsum_delta. destruct (Nat.leb_spec 0 k), (Nat.ltb_spec k (0 + n)); cbn; try lia. reflexivity.
      - intros i Hi. apply in_seq in Hi.
        set (P := map (roots_product (others i)) (seq 0 n)).
        assert (CP : forall m, coeff P m = roots_product (others i) m).
        { intros m. unfold P. rewrite coeff_map_seq. destruct (Nat.ltb_spec m n); [reflexivity|]. symmetry. apply roots_product_top. rewrite others_length by lia. lia. }
        rewrite (eval_linear K P P _ (nth i evals 0 * denom i) 0).
        2:{ intros m. rewrite CP, coeff_map_seq. destruct (Nat.ltb_spec m n); [unfold term_coeff; ring|].
            rewrite (proj2 (roots_product_top K (others i))); [ring|]. rewrite others_length by lia. lia. }
        rewrite (eval_of_roots K (others i) P (p k) CP).
        destruct (Nat.eqb_spec i k) as [->|Hne].
        + pose proof (distinct_denom k HN Hk) as HD. unfold denom, inv_of. rewrite (proj2 (feqb_neq K _ _) HD). field. exact HD.
        + rewrite (cross_zero i k) by lia. ring.
    Qed.
  End Lagrange.

  Lemma interpolate_single md threads (x e : K) : (0 <= md)%Z -> exists l, lagrange_interpolate md threads [x] [e] = Some (Some l) /\
    canonical l /\ (length l <= 1)%nat /\ eval l x = e.
  Proof.
    intros Hmd. unfold lagrange_interpolate. cbn [length Nat.eqb negb]. rewrite dense_make_clean by (cbn; lia).
    exists (remove_high [e]). split; [reflexivity|]. split; [apply remove_high_canonical|]. split; [apply (remove_high_length K [e])|].
    rewrite (eval_ext K _ [e]) by apply remove_high_coeff. rewrite eval_cons, eval_nil. ring.
  Qed.
  Lemma interpolate_spec md threads (points evals : list K) : points <> [] -> length points = length evals -> NoDup points ->
    (0 < threads)%Z -> (2 * Z.of_nat (length points) + threads < 2 ^ 64)%Z -> (Z.of_nat (length points) <= md + 1)%Z ->
    exists l, lagrange_interpolate md threads points evals = Some (Some l) /\ canonical l /\ (length l <= length points)%nat /\
      forall k, (k < length points)%nat -> eval l (nth k points 0) = nth k evals 0.
  Proof.
    intros Hp HL HN Ht Hb Hmd. destruct points as [|x [|y points]]; [congruence| |].
    - destruct evals as [|e [|]]; try discriminate. destruct (interpolate_single md threads x e) as (l & E & C & L & V); [cbn in Hmd; lia|].
      exists l. repeat split; auto. intros k Hk. destruct k; [exact V|cbn in Hk; lia].
    - set (P := x :: y :: points) in *.
      destruct (interpolate_coeffs P md threads evals) as (l & E & C & L & _); auto; [cbn; lia|].
      exists l. repeat split; auto. intros k Hk. apply (interpolate_values P md threads evals l); auto. cbn. lia.
  Qed.
  Lemma interpolate_mismatch md threads (points evals : list K) : length points <> length evals ->
    lagrange_interpolate md threads points evals = Some None.
  Proof. intros H. unfold lagrange_interpolate. destruct (Nat.eqb_spec (length points) (length evals)); [contradiction|]. reflexivity. Qed.
  Lemma interpolate_empty md threads : (0 < threads < 2 ^ 64)%Z -> @lagrange_interpolate K md threads [] [] = None.
  Proof.
    intros Ht. unfold lagrange_interpolate. cbn [length Nat.eqb negb]. rewrite (denoms_spec [] threads) by (cbn [length]; lia).
    cbn [length seq map]. destruct (map_chunked threads None (fun i c s => lagrange_chunk ([] : list K) [] (Z.to_nat (i * c)) s)
        (fun off s => lagrange_chunk ([] : list K) [] off s) [] ltac:(lia) ltac:(cbn [length]; lia)) as (ps & Ec & Hne & _ & EM); auto.
    cbn [length] in EM. rewrite EM. destruct ps as [|q ps]; [reflexivity|]. inversion Hne as [|? ? Hq _]; subst.
    destruct q; [congruence|discriminate].
  Qed.

  (** ** Fold *)
  Lemma fold_loop (l : list K) (r : K) : forall m s c, (2 * (s + m) <= length l)%nat -> (s + m <= length c)%nat ->
    exists c', ofold (fun c i =>
            match nth_error l (2 * i + 1), nth_error l (2 * i) with
            | Some odd, Some even =>
                match store_at c i (odd * r) with
                | Some c => add_at c i even
                | None => None end
            | _, _ => None end) (seq s m) c = Some c' /\ length c' = length c /\
      forall k, coeff c' k = if Nat.leb s k && Nat.ltb k (s + m) then folded (coeff l) r k else coeff c k.
  Proof.
    induction m as [|m IH]; intros s c Hl Hc.
    - exists c. split; [reflexivity|]. split; [reflexivity|]. intros k. destruct (Nat.leb_spec s k), (Nat.ltb_spec k (s + 0)); cbn; try lia; reflexivity.
    - cbn [seq ofold]. rewrite !coeff_nth_error by lia.
      destruct (store_at_spec K c s (coeff l (2 * s + 1) * r) ltac:(lia)) as (c1 & E1 & L1 & C1). rewrite E1.
      destruct (add_at_spec K c1 s (coeff l (2 * s)) ltac:(lia)) as (c2 & E2 & L2 & C2). rewrite E2.
      destruct (IH (S s) c2 ltac:(lia) ltac:(lia)) as (c3 & E3 & L3 & C3). exists c3. split; [exact E3|]. split; [congruence|].
      intros k. rewrite C3, C2, C1. unfold folded.
      destruct (Nat.leb_spec (S s) k), (Nat.ltb_spec k (S s + m)), (Nat.leb_spec s k), (Nat.ltb_spec k (s + S m)), (Nat.eqb_spec k s), (Nat.eqb_spec s k);
        cbn [andb]; try lia; try ring.
      subst k. ring.
  Qed.
  Lemma fold_even_spec md (l : list K) r : Nat.modulo (length l) 2 = 0%nat -> (Z.of_nat (degree l) <= md)%Z ->
    exists c, dense_fold md l r = Some c /\ represents c (folded (coeff l) r).
  Proof.
    intros Hm Hd. unfold dense_fold. rewrite Hm, Nat.eqb_refl.
    pose proof (Nat.div_mod (length l) 2 ltac:(lia)) as Hdm. rewrite Hm in Hdm.
    assert (E2 : Nat.div (length l + 1) 2 = Nat.div (length l) 2).
    { symmetry. apply (Nat.div_unique _ 2 _ 1); lia. }
    rewrite E2. set (h := Nat.div (length l) 2) in *.
    destruct (fold_loop l r h 0 (repeat 0 h)) as (c & E & L & C); [lia|rewrite repeat_length; lia|].
    rewrite E. rewrite repeat_length in L. rewrite dense_make_clean by (rewrite degree_eq in *; lia).
    eexists. split; [reflexivity|]. apply remove_high_represents. intros k. rewrite C. cbn [Nat.leb andb].
    destruct (Nat.ltb_spec k (0 + h)); [reflexivity|]. rewrite coeff_repeat. unfold folded. rewrite !coeff_over by lia. ring.
  Qed.
  Lemma fold_odd_undefined md (l : list K) r : Nat.modulo (length l) 2 = 1%nat -> dense_fold md l r = None.
  Proof.
    intros Hm. unfold dense_fold.
    pose proof (Nat.div_mod (length l) 2 ltac:(lia)) as Hdm. rewrite Hm in Hdm.
    assert (E2 : Nat.div (length l + 1) 2 = (Nat.div (length l) 2 + 1)%nat).
    { symmetry. apply (Nat.div_unique _ 2 _ 0); lia. }
    rewrite E2. set (h := Nat.div (length l) 2) in *. rewrite seq_app, ofold_app.
    destruct (fold_loop l r h 0 (repeat 0 (h + 1))) as (c & E & L & C); [lia|rewrite repeat_length; lia|].
    rewrite E. cbn [plus seq ofold]. rewrite (proj2 (nth_error_None l (2 * h + 1))) by lia. reflexivity.
  Qed.
End P.
