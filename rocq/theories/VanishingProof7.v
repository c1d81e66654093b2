(** Proofs: the cube root of unity, the size of the extended domain, and the evaluations of the instance columns. *)
From Coq Require Import ZArith List Arith Lia Bool Permutation Ring Field Field_theory.
From Verif Require Import Field BigIntModel BigIntSpec BigIntProof BigIntProof2 BitsModel ParallelizeModel SemigroupModel SemigroupSpec SemigroupProof SemigroupExtra PolyModel PolySpec PolyProof PolyProof3 FFTModel FFTSpec FFTProof FFTProof3 FFTProof4 FFTProof5 FFTExtra
  DomainModel DomainSpec DomainProof PcsProof KzgProof2 FriProof ExprModel ExprSpec ParallelizeProof GrandProductModel GrandProductSpec LogDerivModel LogDerivProof2 VanishingModel VanishingSpec VanishingProof VanishingProof4 VanishingProof5.
Import ListNotations.

Section Zeta.
  Variable K : fld.
  Add Field Kvan10 : (fld_theory K).
  Open Scope fld_scope.
  Lemma zeta_spec m trace a (gen : K) : (0 < m)%nat -> limbs 64 m trace -> (0 <= a)%Z -> (0 < val 64 trace)%Z -> (val 64 trace * 2 ^ a < 2 ^ (64 * Z.of_nat m))%Z ->
    primitive_root gen (Z.to_nat (val 64 trace * 2 ^ a)) ->
    if (val 64 trace mod 3 =? 0)%Z then forall scroll, exists z, get_halo2_zeta scroll trace a gen = Some z /\ z * z * z = 1 /\ z <> 1
    else forall scroll, get_halo2_zeta scroll trace a gen = None.
  Proof.
    intros Hm HT Ha Hv HB HP. unfold get_halo2_zeta, get_zeta. rewrite (limbs_length _ _ _ HT). destruct (bi_of_small_spec m 3 Hm ltac:(lia)) as [H3 V3].
    destruct (bi_divide_correct m trace (bi_of_small m 3) Hm HT H3) as [D1 D2]. unfold bi_mod. rewrite V3 in *.
    destruct (bi_divide trace (bi_of_small m 3)) as [[q r]|] eqn:ED; [|exfalso; assert (3 = 0)%Z by (apply D1; reflexivity); lia].
    destruct (D2 q r eq_refl) as (Lq & Lr & Eqr & Br). rewrite (bi_is_zero_val 64 m) by (auto; lia).
    assert (Er : (val 64 trace mod 3 = val 64 r)%Z) by (symmetry; apply (Z.mod_unique_pos _ _ (val 64 q)); lia). rewrite Er.
    destruct (Z.eqb_spec (val 64 r) 0) as [Hr0|Hr0]; [|intros scroll; reflexivity].
    destruct (bi_mul_by_2exp_correct m trace a HT Ha) as [LM VM]. rewrite Z.mod_small in VM by (split; [apply Z.mul_nonneg_nonneg; [lia|apply Z.pow_nonneg; lia]|exact HB]).
    destruct (bi_divide_correct m (bi_mul_by_2exp trace a) (bi_of_small m 3) Hm LM H3) as [E1 E2]. unfold bi_div. rewrite V3 in *.
    destruct (bi_divide (bi_mul_by_2exp trace a) (bi_of_small m 3)) as [[q' r']|]; [|exfalso; assert (3 = 0)%Z by (apply E1; reflexivity); lia]. cbn [option_map fst].
    destruct (E2 q' r' eq_refl) as (Lq' & Lr' & Eq' & Br'). rewrite VM in Eq'.
    assert (Pa : (0 < 2 ^ a)%Z) by (apply Z.pow_pos_nonneg; lia).
    assert (EN : (val 64 trace * 2 ^ a = 3 * val 64 q')%Z) by (rewrite Eqr, Hr0 in *; assert (val 64 r' = 0)%Z; [|nia]; assert (3 * (val 64 q * 2 ^ a - val 64 q') = val 64 r')%Z by nia; lia).
    rewrite (do_pow_spec 1 fmul (fun y => y * y) (fld_monoid K) ltac:(reflexivity) m) by exact Lq'. rewrite times_fpow.
    set (N := Z.to_nat (val 64 trace * 2 ^ a)) in *. set (t := Z.to_nat (val64 q')). assert (Ht : (0 < val64 q')%Z) by nia.
    assert (E3 : N = (3 * t)%nat) by (unfold N, t; rewrite EN; lia). destruct HP as [P1 P2]. rewrite E3 in *. clearbody t.
    assert (T0 : (0 < t)%nat) by (destruct t; [|lia]; lia).
    assert (C1 : gen ^ t * gen ^ t * gen ^ t = 1) by (rewrite <- !fpow_add; rewrite <- P1; f_equal; lia).
    assert (N1 : gen ^ t <> 1) by (apply P2; lia).
    assert (N2 : gen ^ t * gen ^ t <> 1) by (rewrite <- fpow_add; apply P2; lia).
    intros scroll. destruct scroll; eexists; (split; [reflexivity|]); (split; [|assumption]); [exact C1|].
    transitivity ((gen ^ t * gen ^ t * gen ^ t) * (gen ^ t * gen ^ t * gen ^ t)); [ring|]. rewrite C1. ring.
  Qed.
  (** The extended domain: big enough for the quotient, and the smallest such. *)
  Lemma extended_k_spec (sys : constraint_system K) k : (Z.of_nat (2 ^ k * (compute_degree sys - 1)) < 2 ^ 62)%Z ->
    let e := compute_extended_k sys k in
    (k <= e)%nat /\ (2 ^ k * (compute_degree sys - 1) <= 2 ^ e)%nat /\ forall e', (k <= e')%nat -> (2 ^ k * (compute_degree sys - 1) <= 2 ^ e')%nat -> (e <= e')%nat.
  Proof.
    intros HB. unfold compute_extended_k. assert (H3 : (3 <= compute_degree sys)%nat) by (unfold compute_degree; lia).
    assert (Hp : (0 < 2 ^ k)%nat) by (apply Nat.neq_0_lt_0, Nat.pow_nonzero; lia).
    assert (E : (2 ^ Z.of_nat k * Z.of_nat (compute_degree sys - 1) = Z.of_nat (2 ^ k * (compute_degree sys - 1)))%Z) by (rewrite Nat2Z.inj_mul, Nat2Z.inj_pow; reflexivity).
    rewrite E. set (mm := (2 ^ k * (compute_degree sys - 1))%nat) in *. assert (Hmm : (0 < mm)%nat) by (unfold mm; nia). rewrite (trunc_small 64 (Z.of_nat mm)) by lia. destruct (safe_log2_nat mm Hmm ltac:(lia)) as [S1 S2]. set (s := Z.to_nat _) in *.
    split; [lia|]. split; [etransitivity; [exact S1|apply Nat.pow_le_mono_r; lia]|]. intros e' He HE. specialize (S2 e' HE). lia.
  Qed.
End Zeta.

Section Instance_.
  Variable K : fld.
  Add Field Kvan11 : (fld_theory K).
  Open Scope fld_scope.
  Variables (adicity : nat) (root : K).
  Hypothesis Had : (adicity < 62)%nat.
  Hypothesis Hroot : primitive_root root (2 ^ adicity).
  Notation gen := (generator adicity root).
  Variables (k : nat) (d : domain K).
  Hypothesis Hk : (k <= adicity)%nat.
  Hypothesis Hd : radix2_domain adicity root k 1 d.
  Variable threads : Z.
  Hypothesis Hth : (0 < threads < 128)%Z.
  Notation n := (2 ^ k)%nat.
  Notation w := (gen k).
  Notation L x := (lagrange_basis (coset_points 1 w n) x).

  Lemma shift_perm a : Permutation (map (fun i => (i + a) mod n)%nat (seq 0 n)) (seq 0 n).
  Proof.
    assert (Hn : (0 < n)%nat) by (apply Nat.neq_0_lt_0, Nat.pow_nonzero; lia). apply Permutation_sym, NoDup_Permutation_bis.
    - apply seq_NoDup.
    - rewrite map_length. lia.
    - intros j Hj. apply in_seq in Hj. apply in_map_iff. exists ((j + (n - a mod n)) mod n)%nat. split; [|apply in_seq; split; [lia|apply Nat.mod_upper_bound; lia]].
      rewrite Nat.add_mod_idemp_l by lia. rewrite <- Nat.add_mod_idemp_r by lia. pose proof (Nat.mod_upper_bound a n ltac:(lia)). replace (j + (n - a mod n) + a mod n)%nat with (j + 1 * n)%nat by lia.
      rewrite Nat.mod_add by lia. apply Nat.mod_small. lia.
  Qed.
  Lemma gen_prim : primitive_root w n. Proof. apply (gen_primitive K adicity root ltac:(lia) Hroot). exact Hk. Qed.
  (** The value at a rotated point in terms of the Lagrange coefficients at the point itself. *)
  Lemma rotated_eval (P : list K) x r : (length P <= n)%nat -> eval P (rotated w n x r) = fsum (map (fun j => eval P (w ^ j) * L x (Z.to_nat ((Z.of_nat j - r) mod Z.of_nat n))) (seq 0 n)).
  Proof.
    intros HL. assert (Hn : (0 < n)%nat) by (apply Nat.neq_0_lt_0, Nat.pow_nonzero; lia). pose proof gen_prim as HP. unfold rotated. set (a := Z.to_nat (r mod Z.of_nat n)).
    destruct (scaled_poly K (w ^ a) P) as (P' & LP & EP). replace (x * w ^ a) with (w ^ a * x) by ring. rewrite <- EP.
    rewrite <- (basis_interpolates K 1 w k x P' HP (f1_neq_0 K) ltac:(lia)).
    rewrite <- (fsum_perm K _ _ (Permutation_map (fun j => eval P (w ^ j) * L x (Z.to_nat ((Z.of_nat j - r) mod Z.of_nat n))) (shift_perm a))). rewrite map_map. apply fsum_map_ext. intros i Hi. apply in_seq in Hi. rewrite EP.
    assert (E1 : w ^ a * (1 * w ^ i) = w ^ ((i + a) mod n)) by (rewrite (pow_mod_n K w n _ (proj1 HP) Hn), fpow_add; ring). rewrite E1. do 2 f_equal.
    assert (E2 : ((Z.of_nat ((i + a) mod n) - r) mod Z.of_nat n = Z.of_nat i)%Z).
    { rewrite Nat2Z.inj_mod, Zminus_mod_idemp_l, Nat2Z.inj_add. unfold a. rewrite Z2Nat.id by (apply Z.mod_pos_bound; lia).
      replace (Z.of_nat i + r mod Z.of_nat n - r)%Z with (r mod Z.of_nat n + (Z.of_nat i - r))%Z by ring. rewrite Zplus_mod_idemp_l. replace (r + (Z.of_nat i - r))%Z with (Z.of_nat i) by ring. apply Z.mod_small. lia. }
    rewrite E2. symmetry. apply Nat2Z.id.
  Qed.
  Lemma range_spec qs : let '(mn, mx) := rotation_range qs in (mn <= 0 <= mx)%Z /\ forall q, In q qs -> (mn <= snd q <= mx)%Z.
  Proof.
    unfold rotation_range. assert (H : forall qs mn mx, (mn <= mx)%Z -> let '(mn', mx') := fold_left (fun (r : Z * Z) (q : nat * Z) => let '(mn, mx) := r in if (snd q <? mn)%Z then (snd q, mx) else if (mx <? snd q)%Z then (mn, snd q) else (mn, mx)) qs (mn, mx) in
      (mn' <= mn /\ mx <= mx')%Z /\ forall q, In q qs -> (mn' <= snd q <= mx')%Z).
    { clear. induction qs as [|q qs IH]; intros mn mx Hm; cbn [fold_left]; [split; [lia|intros q []]|].
      destruct (Z.ltb_spec (snd q) mn); [|destruct (Z.ltb_spec mx (snd q))].
      - specialize (IH (snd q) mx ltac:(lia)). destruct (fold_left _ qs _) as [mn' mx']. destruct IH as [B I]. split; [lia|]. intros q' [<-|Hq]; [lia|apply I; exact Hq].
      - specialize (IH mn (snd q) ltac:(lia)). destruct (fold_left _ qs _) as [mn' mx']. destruct IH as [B I]. split; [lia|]. intros q' [<-|Hq]; [lia|apply I; exact Hq].
      - specialize (IH mn mx Hm). destruct (fold_left _ qs _) as [mn' mx']. destruct IH as [B I]. split; [lia|]. intros q' [<-|Hq]; [lia|apply I; exact Hq]. }
    specialize (H qs 0%Z 0%Z ltac:(lia)). destruct (fold_left _ qs _) as [mn mx]. destruct H as [B I]. split; [lia|exact I].
  Qed.
  Lemma max_rows (cols : list (list K)) a : (a <= fold_left (fun m c => Nat.max m (length c)) cols a)%nat /\ forall c, In c cols -> (length c <= fold_left (fun m c => Nat.max m (length c)) cols a)%nat.
  Proof.
    revert a. induction cols as [|c cols IH]; intros a; cbn [fold_left]; [split; [lia|intros c []]|]. destruct (IH (Nat.max a (length c))) as [A B]. split; [lia|]. intros c' [<-|Hc]; [lia|apply B; exact Hc].
  Qed.
  Lemma sum_of_products_spec (l r : list K) : sum_of_products l r = fsum (map (fun p => fst p * snd p) (combine l r)).
  Proof.
    unfold sum_of_products. assert (H : forall l a, fold_left (fun acc (p : K * K) => acc + fst p * snd p) l a = a + fsum (map (fun p => fst p * snd p) l)).
    { clear. induction l as [|p l IH]; intros a; cbn [fold_left map fsum]; [ring|]. rewrite IH. ring. }
    rewrite H. ring.
  Qed.
  Lemma combine_tab (l : list K) (f : nat -> K) s : fsum (map (fun p => fst p * snd p) (combine l (map f (seq s (length l))))) = fsum (map (fun j => nth j l 0 * f (s + j)%nat) (seq 0 (length l))).
  Proof.
    revert s. induction l as [|x l IH]; intros s; [reflexivity|]. cbn [length seq map combine fsum fst snd nth]. rewrite Nat.add_0_r. rewrite IH. f_equal. rewrite <- seq_shift, map_map. apply fsum_map_ext. intros j _. cbn [nth]. do 2 f_equal. lia.
  Qed.
  Lemma instance_spec (columns polys : list (list K)) (queries : list (nat * Z)) x :
    Forall2 (fun inst P => (length inst <= n)%nat /\ interpolates w n P (inst ++ repeat 0 (n - length inst))) columns polys -> Forall (fun q => (fst q < length columns)%nat) queries ->
    (Z.abs (fst (rotation_range queries)) < 2 ^ 60)%Z -> (Z.abs (snd (rotation_range queries)) < 2 ^ 60)%Z ->
    instance_evals threads d columns queries x =
    if (Z.of_nat n <? Z.of_nat (list_max (map (@length K) columns)) + snd (rotation_range queries) - fst (rotation_range queries))%Z then None
    else Some (map (fun q => eval (nth (fst q) polys []) (rotated w n x (snd q))) queries).
  Proof.
    intros HC HQ B1 B2. unfold instance_evals. pose proof (range_spec queries) as HR. destruct (rotation_range queries) as [mn mx]. cbn [fst snd] in *. destruct HR as [R0 RQ].
    destruct (rdom_ok K adicity root k 1 d Had Hroot Hk Hd) as [Ok Pk]. pose proof (pow2_small k ltac:(lia)) as Hb. destruct (max_rows columns 0) as [_ MR].
    assert (EM : list_max (map (@length K) columns) = fold_left (fun m c => Nat.max m (length c)) columns 0%nat).
    { clear. assert (H : forall a, fold_left (fun m (c : list K) => Nat.max m (length c)) columns a = Nat.max a (list_max (map (@length K) columns))); [|rewrite H; reflexivity].
      unfold list_max. induction columns as [|c cs IH]; intros a; cbn [fold_left map fold_right]; [lia|]. rewrite IH. lia. }
    rewrite EM. set (rows := fold_left _ columns 0%nat) in *. destruct (Z.ltb_spec (Z.of_nat n) (Z.of_nat rows + mx - mn)) as [Hlt|Hge].
    - rewrite (partial_lagrange_too_many K threads d k w 1) by (auto; lia). reflexivity.
    - rewrite (partial_lagrange_wrap K threads d k w 1) by (auto; lia). apply all_some_ext. intros [c r] Hq. unfold instance_eval. cbn [fst snd].
      rewrite Forall_forall in HQ. pose proof (HQ _ Hq) as Hc. cbn [fst] in Hc. pose proof (RQ _ Hq) as Hr. cbn [snd] in Hr.
      destruct (nth_error columns c) as [inst|] eqn:Ei; [|apply nth_error_None in Ei; lia].
      assert (HI : (length inst <= n)%nat /\ interpolates w n (nth c polys []) (inst ++ repeat 0 (n - length inst))).
      { clear -HC Ei. revert c Ei. induction HC as [|a P cs ps HP _ IH]; intros [|c] E; try discriminate; cbn [nth_error nth] in *; [injection E as <-; exact HP|apply IH; exact E]. }
      destruct HI as (LI & LP & EP). pose proof (MR inst (nth_error_In _ _ Ei)) as ML.
      rewrite map_length, seq_length. replace (Nat.ltb _ _) with false by (symmetry; apply Nat.ltb_ge; lia). f_equal. rewrite sum_of_products_spec. unfold slice. rewrite slice_tab by lia. rewrite combine_tab.
      rewrite (rotated_eval (nth c polys []) x r LP). replace (seq 0 n) with (seq 0 (length inst + (n - length inst))) by (f_equal; lia). rewrite seq_app, map_app, fsum_app.
      rewrite (fsum_map_zero K _ (seq (0 + length inst) _)).
      + match goal with |- ?a = ?b + 0 => transitivity b; [|ring] end. apply fsum_map_ext. intros j Hj. apply in_seq in Hj. f_equal.
        * apply (f_equal (fun l => nth j l 0)) in EP. rewrite (nth_tab_from K) in EP by lia. cbn [plus] in EP. rewrite app_nth1 in EP by lia. exact EP.
        * do 3 f_equal. lia.
      + intros j Hj. apply in_seq in Hj. apply (f_equal (fun l => nth j l 0)) in EP. rewrite (nth_tab_from K) in EP by lia. cbn [plus] in EP. rewrite app_nth2 in EP by lia. rewrite nth_repeat in EP. rewrite <- EP. ring.
  Qed.
End Instance_.
