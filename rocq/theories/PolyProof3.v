(** Evaluation, roots and interpolation. *)
From Coq Require Import ZArith List Bool Arith Lia Ring Field Field_theory Permutation.
From Verif Require Import Field BigIntModel ParallelizeModel ParallelizeProof ParallelizeExtra Chunked SemigroupModel SemigroupSpec SemigroupProof SemigroupExtra PolyModel PolySpec PolyProof PolyProof2.
Import ListNotations.
Open Scope fld_scope.

Section P.
  Variable K : fld.
  Add Field KfP3 : (fld_theory K).

  Lemma eval_coeffs (l : list K) x n : (length l <= n)%nat -> eval l x = fsum (map (fun i => coeff l i * x ^ i) (seq 0 n)).
  Proof. intros H. symmetry. apply fsum_seq_pad; auto. intros i Hi. rewrite coeff_over by exact Hi. ring. Qed.
  Lemma eval_ext (a b : list K) x : (forall i, coeff a i = coeff b i) -> eval a x = eval b x.
  Proof.
    intros H. rewrite (eval_coeffs a x (Nat.max (length a) (length b))), (eval_coeffs b x (Nat.max (length a) (length b))) by lia.
    apply fsum_map_ext. intros. rewrite H. reflexivity.
  Qed.
  Lemma eval_nil x : eval ([] : list K) x = 0. Proof. reflexivity. Qed.
  Lemma eval_cons (c : K) l x : eval (c :: l) x = c + x * eval l x.
  Proof.
    unfold eval. cbn [length seq map fsum]. rewrite <- seq_shift, map_map, <- fsum_map_mul.
    f_equal; [unfold coeff; cbn; ring|]. apply fsum_map_ext. intros i _. unfold coeff. cbn [nth fpow]. ring.
  Qed.
  Lemma eval_app (a b : list K) x : eval (a ++ b) x = eval a x + x ^ (length a) * eval b x.
  Proof.
    induction a as [|c a IH]; [cbn [app length fpow]; rewrite eval_nil; ring|].
    cbn [app length fpow]. rewrite !eval_cons, IH. ring.
  Qed.
  Lemma eval_at_0 (l : list K) : eval l 0 = coeff l 0.
  Proof. destruct l; [reflexivity|]. rewrite eval_cons. unfold coeff. cbn. ring. Qed.
  Lemma eval_linear (a b l : list K) s t x : (forall i, coeff l i = s * coeff a i + t * coeff b i) -> eval l x = s * eval a x + t * eval b x.
  Proof.
    intros H. set (n := Nat.max (length l) (Nat.max (length a) (length b))).
    rewrite (eval_coeffs l x n), (eval_coeffs a x n), (eval_coeffs b x n) by (unfold n; lia).
    rewrite <- !fsum_map_mul, <- fsum_map_add. apply fsum_map_ext. intros i _. rewrite H. ring.
  Qed.
  (** ** Products of evaluations *)
  Fixpoint pm (a b : list K) : list K :=
    match a with [] => [] | c :: a => map (fun i => c * coeff b i + coeff (0 :: pm a b) i) (seq 0 (S (length b + length (pm a b)))) end.
  Lemma pm_coeff (a b : list K) k : coeff (pm a b) k = conv (coeff a) (coeff b) k.
  Proof.
    revert k. induction a as [|c a IH]; intros k.
    - rewrite conv_zero_l by (intros; apply coeff_over; cbn; lia). apply coeff_over. cbn. lia.
    - rewrite (conv_ext K (coeff (c :: a)) (fun i => match i with O => c | S j => coeff a j end) _ (coeff b)); auto.
      rewrite conv_cons. cbn [pm]. rewrite coeff_map_seq, coeff_cons.
      assert (Hk : (S (length b + length (pm a b)) <= k)%nat -> c * coeff b k + match k with O => 0 | S k => conv (coeff a) (coeff b) k end = 0).
      { intros Hk. rewrite coeff_over by lia. destruct k; [lia|]. rewrite <- IH, coeff_over by lia. ring. }
      destruct (Nat.ltb_spec k (S (length b + length (pm a b)))).
      + destruct k; [reflexivity|]. rewrite IH. reflexivity.
      + symmetry. apply Hk. assumption.
  Qed.
  Lemma pm_eval (a b : list K) x : eval (pm a b) x = eval a x * eval b x.
  Proof.
    induction a as [|c a IH]; [cbn [pm]; rewrite !eval_nil; ring|]. rewrite eval_cons.
    rewrite (eval_linear b (0 :: pm a b) _ c 1).
    - rewrite eval_cons, IH. ring.
    - intros i. cbn [pm]. rewrite coeff_map_seq. destruct (Nat.ltb_spec i (S (length b + length (pm a b)))); [ring|].
      rewrite !coeff_over by (cbn [length]; lia). ring.
  Qed.
  Lemma eval_conv (a b m : list K) x : (forall k, coeff m k = conv (coeff a) (coeff b) k) -> eval m x = eval a x * eval b x.
  Proof. intros H. rewrite <- pm_eval. apply eval_ext. intros. rewrite pm_coeff. apply H. Qed.

  (** ** Horner and the chunks *)
  Lemma horner_eval (l : list K) x : horner l x = eval l x.
  Proof.
    unfold horner. induction l as [|c l IH]; [reflexivity|]. cbn [rev]. rewrite fold_left_app. cbn [fold_left].
    rewrite IH, eval_cons. ring.
  Qed.
  Lemma fold_left_add (l : list K) a : fold_left fadd l a = a + fsum l.
  Proof. revert a. induction l as [|x l IH]; intros a; cbn; [ring|]. rewrite IH. ring. Qed.
  Lemma fold_left_mul (l : list K) a : fold_left fmul l a = a * fprod l.
  Proof. revert a. induction l as [|x l IH]; intros a; cbn; [ring|]. rewrite IH. ring. Qed.
  Lemma chunked_eval x : forall (ps : list (list K)) off,
    fsum (chunked (fun off p => eval p x * x ^ off) off ps) = x ^ off * eval (concat ps) x.
  Proof.
    induction ps as [|p ps IH]; intros off; cbn [chunked fsum concat]; [rewrite eval_nil; ring|].
    rewrite IH, eval_app, fpow_add. ring.
  Qed.
  Lemma do_pow_fpow (e : Z) (x : K) : (0 <= e < 2 ^ 64)%Z -> do_pow 1 fmul (fun y => y * y) [e] x = x ^ (Z.to_nat e).
  Proof.
    intros He. rewrite (do_pow_word 1 fmul (fun y => y * y) (fld_monoid K) ltac:(reflexivity)) by exact He.
    apply times_fpow.
  Qed.
  Lemma evaluate_spec threads (l : list K) x : (0 < threads)%Z -> (2 * Z.of_nat (length l) + threads < 2 ^ 64)%Z ->
    dense_evaluate threads l x = eval l x.
  Proof.
    intros Ht Hb. unfold dense_evaluate. destruct l as [|c l]; [reflexivity|]. set (L := c :: l) in *.
    destruct (iszero x) eqn:Ex.
    { apply iszero_eq in Ex. subst x. rewrite eval_at_0. reflexivity. }
    destruct (map_chunked threads None (fun i c s => horner s x * do_pow 1 fmul (fun y => y * y) [trunc 64 (i * c)] x)
      (fun off p => eval p x * x ^ off) L Ht Hb) as (ps & Ec & _ & _ & E).
    { intros i ch s Hi Hc _ Hl. assert (0 <= i * ch)%Z by nia. rewrite trunc_small by lia.
      rewrite horner_eval, do_pow_fpow by lia. reflexivity. }
    rewrite E, fold_left_add, chunked_eval, Ec. cbn [fpow]. ring.
  Qed.

  (** ** Vanishing polynomials *)
  Lemma vanishing_serial_spec (rs : list K) x : vanishing_serial rs x = fprod (map (fun r => x - r) rs).
  Proof.
    unfold vanishing_serial. enough (H : forall a, fold_left (fun acc r => acc * (x - r)) rs a = a * fprod (map (fun r => x - r) rs))
      by (rewrite H; ring).
    induction rs as [|r rs IH]; intros a; cbn; [ring|]. rewrite IH. ring.
  Qed.
  Lemma vanishing_spec threads (rs : list K) x : (0 < threads)%Z -> (2 * Z.of_nat (length rs) + threads < 2 ^ 64)%Z ->
    vanishing_by_roots threads rs x = fprod (map (fun r => x - r) rs).
  Proof.
    intros Ht Hb. unfold vanishing_by_roots.
    destruct (map_chunked threads None (fun _ _ s => vanishing_serial s x) (fun _ s => vanishing_serial s x) rs Ht Hb) as (ps & Ec & _ & _ & E); auto.
    rewrite E, fold_left_mul. subst rs. clear. generalize 0%nat. induction ps as [|p ps IH]; intros off; cbn [chunked concat fprod map]; [ring|].
    rewrite map_app, fprod_app, vanishing_serial_spec. specialize (IH (off + length p)%nat).
    transitivity (fprod (map (fun r => x - r) p) * (1 * fprod (chunked (fun _ s => vanishing_serial s x) (off + length p) ps))); [ring|]. rewrite IH. reflexivity.
  Qed.

  (** ** FromRoots *)
  Lemma descend_spec (root : K) n : forall c, (n < length c)%nat -> exists c',
    ofold (fun c j => match nth_error c (j - 1), nth_error c j with
                            | Some p, Some x => store_at c j (p - root * x)
                            | _, _ => None end) (rev (seq 1 n)) c = Some c' /\ length c' = length c /\
    forall k, coeff c' k = if Nat.ltb 0 k && Nat.leb k n then coeff c (k - 1) - root * coeff c k else coeff c k.
  Proof.
    induction n as [|n IH]; intros c Hc.
    - exists c. split; [reflexivity|]. split; [reflexivity|]. intros k. destruct (Nat.ltb_spec 0 k), (Nat.leb_spec k 0); cbn; try lia; reflexivity.
    - rewrite seq_S, rev_app_distr. cbn [rev app ofold]. replace (1 + n - 1)%nat with n by lia.
      rewrite !coeff_nth_error by lia. change (1 + n)%nat with (S n).
      destruct (store_at_spec K c (S n) (coeff c n - root * coeff c (S n)) Hc) as (c1 & E1 & L1 & C1). rewrite E1.
      destruct (IH c1 ltac:(lia)) as (c2 & E2 & L2 & C2). exists c2. split; [exact E2|]. split; [congruence|].
      intros k. rewrite C2, !C1.
      destruct (Nat.ltb_spec 0 k), (Nat.leb_spec k n), (Nat.leb_spec k (S n)), (Nat.eqb_spec k (S n)), (Nat.eqb_spec (k - 1) (S n)); cbn [andb]; try lia; try reflexivity.
      subst k. replace (S n - 1)%nat with n by lia. reflexivity.
  Qed.
  Lemma step_spec i (root : K) (c : list K) : (i + 1 < length c)%nat -> (forall k, (i < k)%nat -> coeff c k = 0) ->
    exists c', from_roots_step c (i, root) = Some c' /\ length c' = length c /\
      (forall k, coeff c' k = conv (coeff [- root; 1]) (coeff c) k) /\ (forall k, (i + 1 < k)%nat -> coeff c' k = 0).
  Proof.
    intros Hc Hz. unfold from_roots_step. destruct (descend_spec root (i + 1) c Hc) as (c1 & E1 & L1 & C1). rewrite E1.
    rewrite coeff_nth_error by lia.
    destruct (store_at_spec K c1 0 (coeff c1 0 * - root) ltac:(lia)) as (c2 & E2 & L2 & C2). rewrite E2.
    assert (HC : forall k, coeff c2 k = conv (coeff [- root; 1]) (coeff c) k).
    { intros k. rewrite conv_linear, C2, !C1. destruct k as [|k]; [cbn [Nat.eqb Nat.ltb Nat.leb andb]; ring|]. replace (Nat.eqb (S k) 0) with false by reflexivity.
      replace (S k - 1)%nat with k by lia. destruct (Nat.ltb_spec 0 (S k)); [|lia]. cbn [andb].
      destruct (Nat.leb_spec (S k) (i + 1)); [reflexivity|]. rewrite !Hz by lia. ring. }
    exists c2. split; [reflexivity|]. split; [congruence|]. split; [exact HC|].
    intros k Hk. rewrite HC, conv_linear. destruct k; [lia|]. rewrite !Hz by lia. ring.
  Qed.
  Definition apply_roots (rs : list K) (g : nat -> K) : nat -> K := fold_left (fun g r => conv (coeff [- r; 1]) g) rs g.
  Lemma apply_roots_ext rs : forall f g, (forall k, f k = g k) -> forall k, apply_roots rs f k = apply_roots rs g k.
  Proof.
    induction rs as [|r rs IH]; intros f g H k; cbn; [apply H|]. apply IH. intros. apply conv_ext; auto.
  Qed.
  Lemma apply_roots_product rs : forall g, (forall k, g k = coeff [1] k) -> forall k, apply_roots rs g k = roots_product (rev rs) k.
  Proof.
    induction rs as [|r rs IH] using rev_ind; intros g H k; [apply H|].
    unfold apply_roots. rewrite fold_left_app, rev_app_distr. cbn [fold_left rev app roots_product].
    apply conv_ext; auto.
  Qed.
  Lemma roots_product_perm (a b : list K) : Permutation a b -> forall k, roots_product a k = roots_product b k.
  Proof.
    induction 1 as [|x a b H IH|x y a|a b c H1 IH1 H2 IH2]; intros k.
    - reflexivity.
    - cbn [roots_product]. apply conv_ext; auto.
    - cbn [roots_product]. rewrite !conv_linear. destruct k; rewrite ?conv_linear; [ring|]. destruct k; ring.
    - rewrite IH1. apply IH2.
  Qed.
  Lemma from_roots_loop : forall (rs : list K) i (c : list K), (i + length rs < length c)%nat -> (forall k, (i < k)%nat -> coeff c k = 0) ->
    exists c', ofold from_roots_step (combine (seq i (length rs)) rs) c = Some c' /\ length c' = length c /\
      forall k, coeff c' k = apply_roots rs (coeff c) k.
  Proof.
    induction rs as [|r rs IH]; intros i c Hc Hz; cbn [length] in *.
    - exists c. repeat split; auto.
    - cbn [seq combine ofold]. destruct (step_spec i r c ltac:(lia) Hz) as (c1 & E1 & L1 & C1 & Z1). rewrite E1.
      destruct (IH (S i) c1 ltac:(lia)) as (c2 & E2 & L2 & C2). { intros. apply Z1. lia. }
      exists c2. split; [exact E2|]. split; [congruence|]. intros k. rewrite C2. cbn. apply apply_roots_ext. exact C1.
  Qed.
  Lemma init_one n : exists c : list K, store_at (repeat 0 (n + 1)) 0 1 = Some c /\ length c = (n + 1)%nat /\ forall k, coeff c k = coeff [1] k.
  Proof.
    destruct (store_at_spec K (repeat 0 (n + 1)) 0 1) as (c & E & L & C); [rewrite repeat_length; lia|].
    exists c. rewrite repeat_length in L. split; [exact E|]. split; [exact L|]. intros k. rewrite C, coeff_repeat. destruct k as [|[|k]]; reflexivity.
  Qed.
  Lemma coeff_one_over (c : list K) : (forall k, coeff c k = coeff [1] k) -> forall k, (0 < k)%nat -> coeff c k = 0.
  Proof. intros H k Hk. rewrite H. apply coeff_over. cbn. lia. Qed.
  Lemma from_roots_spec (roots : list K) : exists c, from_roots roots = Some c /\ length c = (length roots + 1)%nat /\
    forall k, coeff c k = roots_product roots k.
  Proof.
    unfold from_roots. destruct (init_one (length roots)) as (c0 & E0 & L0 & C0). rewrite E0.
    destruct (from_roots_loop roots 0 c0 ltac:(lia) (coeff_one_over c0 C0)) as (c & E & L & C).
    exists c. split; [exact E|]. split; [lia|]. intros k. rewrite C, apply_roots_product by exact C0.
    apply roots_product_perm. symmetry. apply Permutation_rev.
  Qed.
  Lemma roots_product_top (rs : list K) : roots_product rs (length rs) = 1 /\ forall k, (length rs < k)%nat -> roots_product rs k = 0.
  Proof.
    induction rs as [|r rs [I1 I2]]; cbn [roots_product length].
    - split; [reflexivity|]. intros. apply coeff_over. cbn. lia.
    - split; [rewrite conv_linear, I1, I2 by lia; ring|]. intros k Hk. rewrite conv_linear. destruct k; [lia|]. rewrite !I2 by lia. ring.
  Qed.
  Lemma from_roots_canonical (roots : list K) c : from_roots roots = Some c -> represents c (roots_product roots).
  Proof.
    intros E. destruct (from_roots_spec roots) as (c' & E' & L & C). rewrite E in E'. injection E' as <-.
    split; [|exact C]. apply canonical_of_lead. intros _. rewrite C, L. replace (length roots + 1 - 1)%nat with (length roots) by lia.
    rewrite (proj1 (roots_product_top roots)). apply f1_neq_0.
  Qed.
  Lemma eval_of_roots (rs : list K) : forall c x, (forall k, coeff c k = roots_product rs k) -> eval c x = fprod (map (fun r => x - r) rs).
  Proof.
    induction rs as [|r rs IH]; intros c x H; cbn [map fprod].
    - rewrite (eval_ext c [1]) by exact H. rewrite eval_cons, eval_nil. ring.
    - set (c1 := map (roots_product rs) (seq 0 (S (length rs)))).
      assert (C1 : forall k, coeff c1 k = roots_product rs k).
      { intros k. unfold c1. rewrite coeff_map_seq. destruct (Nat.ltb_spec k (S (length rs))); [reflexivity|]. symmetry. apply roots_product_top. lia. }
      rewrite (eval_conv [- r; 1] c1).
      + rewrite (IH c1 x C1), !eval_cons, eval_nil. ring.
      + intros k. rewrite H. cbn [roots_product]. apply conv_ext; auto.
  Qed.

  (** ** Roots bound the degree *)
  Fixpoint quot (l : list K) (x : K) : list K := match l with [] => [] | c :: l0 => match l0 with [] => [] | _ => eval l0 x :: quot l0 x end end.
  Lemma quot_length l x : length (quot l x) = (length l - 1)%nat.
  Proof. induction l as [|c l IH]; [reflexivity|]. cbn [quot]. destruct l; [reflexivity|]. cbn [length] in *. rewrite IH. lia. Qed.
  Lemma quot_eval l x y : eval l y - eval l x = (y - x) * eval (quot l x) y.
  Proof.
    induction l as [|c l IH]; [cbn [quot]; rewrite !eval_nil; ring|]. rewrite !eval_cons. cbn [quot]. destruct l as [|d l]; [rewrite !eval_nil; ring|].
    rewrite (eval_cons (eval (d :: l) x)). set (L := d :: l) in *.
    transitivity (y * (eval L y - eval L x) + (y - x) * eval L x); [ring|]. rewrite IH. ring.
  Qed.
  Lemma quot_zero l x : eval l x = 0 -> (forall i, coeff (quot l x) i = 0) -> forall i, coeff l i = 0.
  Proof.
    induction l as [|c l IH]; intros He Hq i; [apply coeff_over; cbn; lia|].
    rewrite eval_cons in He. cbn [quot] in Hq. destruct l as [|d l].
    - rewrite eval_nil in He. destruct i as [|i]; [|apply coeff_over; cbn; lia]. unfold coeff. cbn. rewrite <- He. ring.
    - assert (E0 : eval (d :: l) x = 0) by exact (Hq 0%nat). rewrite E0 in He.
      destruct i as [|i].
      + unfold coeff. cbn. rewrite <- He. ring.
      + rewrite coeff_cons. apply IH; [exact E0|]. intros j. exact (Hq (S j)).
  Qed.
  Lemma roots_bound : forall (xs l : list K), NoDup xs -> (length l <= length xs)%nat -> (forall x, In x xs -> eval l x = 0) -> forall i, coeff l i = 0.
  Proof.
    induction xs as [|x xs IH]; intros l Hn Hl Hr i.
    - apply coeff_over. cbn in Hl. lia.
    - inversion Hn as [|? ? Hx Hn']; subst. apply (quot_zero l x); [apply Hr; left; reflexivity|]. intros j.
      apply (IH (quot l x) Hn').
      + rewrite quot_length. cbn [length] in Hl. lia.
      + intros y Hy. pose proof (quot_eval l x y) as Q. rewrite (Hr x), (Hr y) in Q by (cbn; auto).
        assert (Hxy : y - x <> 0). { intros E. apply (proj1 (fsub_eq0 K y x)) in E. rewrite E in Hy. exact (Hx Hy). }
        apply (fmul_cancel_l K (y - x)); [exact Hxy|]. rewrite <- Q. ring.
  Qed.
  Lemma interpolation_unique (xs a b : list K) : NoDup xs -> canonical a -> canonical b -> (length a <= length xs)%nat -> (length b <= length xs)%nat ->
    (forall x, In x xs -> eval a x = eval b x) -> a = b.
  Proof.
    intros Hn Ha Hb La Lb H. apply canonical_unique; auto. intros i. apply fsub_eq0.
    set (d := map (fun i => coeff a i - coeff b i) (seq 0 (length xs))).
    assert (Hd : forall i, coeff d i = coeff a i - coeff b i).
    { intros j. unfold d. rewrite coeff_map_seq. destruct (Nat.ltb_spec j (length xs)); [reflexivity|]. rewrite !coeff_over by lia. ring. }
    rewrite <- Hd. apply (roots_bound xs); auto.
    - unfold d. rewrite map_length, seq_length. lia.
    - intros x Hx. rewrite (eval_linear a b d 1 (- (1))); [rewrite (H x Hx); ring|]. intros j. rewrite Hd. ring.
  Qed.
End P.
