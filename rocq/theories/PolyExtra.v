(** Combined statements for PolyProps.v. *)
From Coq Require Import ZArith List Bool Arith Lia Ring Field Field_theory Permutation Sorted.
From Verif Require Import Field Zp PolyModel PolySpec PolyProof PolyProof2 PolyProof3 PolyProof4 PolyProof5 PolyProof6.
Import ListNotations.
Open Scope fld_scope.

Notation g7 n := (mkz 7 (prime_check_sound 7 eq_refl) n : F7).

Lemma scanonical_iff (K : fld) (a b : list (Z * K)) : scanonical a -> scanonical b -> (a = b <-> forall d, scoeff a d = scoeff b d).
Proof. intros Ha Hb. split; [congruence|]. apply scanonical_unique; auto. Qed.

Section E.
  Variable K : fld.
  Add Field KfPE : (fld_theory K).
  Lemma canonical_iff (a b : list K) : canonical a -> canonical b -> (a = b <-> forall i, coeff a i = coeff b i).
  Proof. intros Ha Hb. split; [congruence|]. apply canonical_unique; auto. Qed.
  Lemma dense_linear (md : Z) (a b : list K) (s : K) : canonical a -> canonical b ->
    (Z.of_nat (degree a) <= md)%Z -> (Z.of_nat (degree b) <= md)%Z ->
    (represents (dense_add a b) (fun i => coeff a i + coeff b i) /\ dense_add_in_place a b = dense_add a b) /\
    (exists l, dense_sub md a b = Some l /\ dense_sub_in_place md a b = Some l /\ represents l (fun i => coeff a i - coeff b i)) /\
    (exists l, dense_negate md a = Some l /\ dense_negate_in_place a = l /\ represents l (fun i => - coeff a i)) /\
    (exists l, dense_mul_scalar md a s = Some l /\ dense_mul_scalar_in_place a s = l /\ represents l (fun i => coeff a i * s)) /\
    (s <> 0 -> exists l, dense_div_scalar md a s = Some (Some l) /\ dense_div_scalar_in_place a s = Some l /\ represents l (fun i => coeff a i / s)).
  Proof.
    intros Ha Hb Da Db. split; [split; [apply add_spec; auto|apply add_in_place_spec; auto]|]. split; [apply sub_spec; auto|]. split; [|split].
    - destruct (negate_spec K md a Ha Da) as (l & E & R). exists l. split; [exact E|]. split; [|exact R].
      eapply represents_unique; [apply negate_in_place_spec; exact Ha|exact R].
    - destruct (mul_scalar_spec K md a s Ha Da) as (l & E & R). exists l. split; [exact E|]. split; [|exact R].
      eapply represents_unique; [apply mul_scalar_in_place_spec; exact Ha|exact R].
    - intros Hs. apply div_scalar_spec; auto.
  Qed.
  Lemma dense_sparse (md : Z) (a : list K) (b : list (Z * K)) : canonical a -> scanonical b -> (sp_degree b <= md)%Z ->
    (exists l, ds_add md a b = Some l /\ ds_add_in_place false a b = Some l /\ represents l (fun i => coeff a i + scoeff b i)) /\
    (exists l, ds_sub md a b = Some l /\ ds_add_in_place true a b = Some l /\ represents l (fun i => coeff a i - scoeff b i)) /\
    (exists l, ds_mul md a b = Some l /\ ds_mul_in_place a b = Some l /\ represents l (conv (coeff a) (scoeff b))).
  Proof.
    intros Ha Hb Hd. split; [|split].
    - destruct (ds_add_spec K md a b Ha Hb Hd) as (l & E & R). destruct (ds_add_in_place_spec K false a b Ha Hb) as (l' & E' & R').
      exists l. split; [exact E|]. split; [|exact R]. rewrite E'. f_equal. eapply represents_unique; eauto.
    - destruct (ds_sub_spec K md a b Ha Hb Hd) as (l & E & R). destruct (ds_add_in_place_spec K true a b Ha Hb) as (l' & E' & R').
      exists l. split; [exact E|]. split; [|exact R]. rewrite E'. f_equal. eapply represents_unique; [exact R'|].
      destruct R as [R1 R2]. split; [exact R1|]. intros. rewrite R2. cbn [sg]. ring.
    - apply ds_mul_spec; auto.
  Qed.
  Lemma dense_division (md : Z) (f g : list K) : canonical f -> canonical g -> f <> [] -> (Z.of_nat (degree f) <= md)%Z ->
    (g = [] -> dense_divide md f g = Some None) /\
    (g <> [] -> exists q r, dense_divide md f g = Some (Some (q, r)) /\ dense_div md f g = Some (Some q) /\ dense_mod md f g = Some (Some r) /\
       canonical q /\ canonical r /\ smaller r g /\ (forall k, coeff f k = conv (coeff q) (coeff g) k + coeff r k) /\
       forall q' r', canonical q' -> canonical r' -> smaller r' g -> (forall k, coeff f k = conv (coeff q') (coeff g) k + coeff r' k) -> q' = q /\ r' = r).
  Proof.
    intros Hf Hg Hn Hd. split; [intros ->; apply dense_divide_zero_divisor|]. intros Hgn.
    destruct (dense_divide_spec K md f g Hf Hg Hn Hgn Hd) as (q & r & E & Cq & Cr & S & D). exists q, r.
    split; [exact E|]. split; [unfold dense_div; rewrite E; cbn [option_map fst]; rewrite remove_high_id by exact Cq; reflexivity|]. split; [unfold dense_mod; rewrite E; cbn [option_map snd]; rewrite ?remove_high_id by exact Cr; reflexivity|].
    repeat (split; [assumption|]). intros q' r' Cq' Cr' S' D'. apply (division_unique K g q' r' q r); auto. intros k. rewrite <- D, <- D'. reflexivity.
  Qed.
  Lemma sparse_divisor (md : Z) (f : list K) (g : list (Z * K)) : canonical f -> scanonical g -> f <> [] ->
    (Z.of_nat (degree f) <= md)%Z -> (sp_degree g <= md)%Z ->
    (g = [] -> ds_divide md f g = Some None) /\
    (g <> [] -> exists q r, ds_divide md f g = Some (Some (q, r)) /\ canonical q /\ canonical r /\ (Z.of_nat (length r) <= sp_degree g)%Z /\
       forall k, coeff f k = conv (coeff q) (scoeff g) k + coeff r k).
  Proof. intros. split; [intros ->; reflexivity|]. intros. apply ds_divide_spec; auto. Qed.
  Lemma zero_dividend (md : Z) (g : list K) : canonical g -> g <> [] ->
    dense_divide md [] g = Some (Some ([], g)) /\ ~ smaller g g /\
    ~ (forall k, coeff (@nil K) k = conv (coeff []) (coeff g) k + coeff g k).
  Proof.
    intros Hg Hn. split; [apply dense_divide_zero_self; exact Hn|]. split; [unfold smaller; lia|]. intros H.
    apply Hn. apply canonical_unique; [exact Hg|exact (canonical_nil K)|]. intros i. specialize (H i).
    rewrite conv_zero_l in H by (intros; apply coeff_over; cbn; lia). rewrite H. ring.
  Qed.
  Lemma zero_quotient (md : Z) (g : list K) : g <> [] -> dense_div md [] g = Some (Some []).
  Proof. intros H. unfold dense_div. rewrite dense_divide_zero_self by exact H. reflexivity. Qed.
  Lemma eval_product (a b m : list K) (x : K) : dense_mul a b = Some m -> canonical a -> canonical b -> eval m x = eval a x * eval b x.
  Proof.
    intros E Ha Hb. destruct (mul_spec K a b Ha Hb) as (l & E1 & _ & R1 & R2). rewrite E in E1. injection E1 as <-. apply eval_conv. exact R2.
  Qed.
  Lemma sparse_ring (sort : list (Z * K) -> list (Z * K)) (md : Z) (a b : list (Z * K)) (c : K) :
    (forall l, Permutation l (sort l) /\ StronglySorted Z.le (map fst (sort l))) ->
    scanonical a -> scanonical b -> (sp_degree a + sp_degree b <= md)%Z -> (md < 2 ^ 64)%Z ->
    (exists s, sp_add md a b = Some s /\ srepresents s (fun d => scoeff a d + scoeff b d)) /\
    (exists s, sp_sub md a b = Some s /\ srepresents s (fun d => scoeff a d - scoeff b d)) /\
    (exists s, sp_negate md a = Some s /\ sp_negate_in_place a = s /\ srepresents s (fun d => - scoeff a d)) /\
    (exists s, sp_mul_scalar md a c = Some s /\ sp_mul_scalar_in_place a c = s /\ srepresents s (fun d => scoeff a d * c)) /\
    (exists s, sp_mul sort md a b = Some s /\ sp_mul_in_place sort md a b = Some s /\ srepresents s (conv (scoeff a) (scoeff b))).
  Proof.
    intros Hs Ha Hb Hd Hm. pose proof (degree_nonneg K a Ha). pose proof (degree_nonneg K b Hb).
    split; [apply sp_add_spec; auto; lia|]. split; [apply sp_sub_spec; auto; lia|]. split; [apply sp_negate_spec; auto; lia|].
    split; [apply sp_mul_scalar_spec; auto; lia|]. apply sp_mul_spec; auto.
  Qed.
  Lemma sparse_conversion (md : Z) : (0 <= md < 2 ^ 64)%Z ->
    (forall (s : list (Z * K)) d, scanonical s -> sp_at s (Z.of_nat d) = scoeff s d) /\
    (forall s : list (Z * K), scanonical s -> (sp_degree s <= md)%Z -> exists l, sp_to_dense md s = Some l /\ represents l (scoeff s) /\ to_sparse md l = Some s) /\
    (forall l : list K, canonical l -> (Z.of_nat (degree l) <= md)%Z -> exists s, to_sparse md l = Some s /\ srepresents s (coeff l) /\ sp_to_dense md s = Some l).
  Proof.
    intros Hm.
    assert (D1 : forall (s : list (Z * K)) l, scanonical s -> (sp_degree s <= md)%Z -> represents l (scoeff s) -> (Z.of_nat (degree l) <= md)%Z).
    { intros s l Hs Hd [R1 R2]. pose proof (degree_nonneg K s Hs). assert (HL : (length l <= Z.to_nat (sp_degree s) + 1)%nat).
      { apply canonical_length_le; [exact R1|]. intros i Hi. rewrite R2. apply scoeff_over'; auto. lia. }
      rewrite degree_eq. lia. }
    split; [intros; apply sat_coeff; auto|]. split.
    - intros s Hs Hd. destruct (to_dense_spec K md s Hs Hd) as (l & E & R). exists l. split; [exact E|]. split; [exact R|].
      destruct (to_sparse_spec K md l) as (s' & E' & R1 & R2); [lia|eapply D1; eauto|lia|]. rewrite E'. f_equal. apply scanonical_unique; auto.
      intros d. rewrite R2. apply R.
    - intros l Hl Hd. destruct (to_sparse_spec K md l) as (s & E & R1 & R2); [lia|exact Hd|lia|]. exists s. split; [exact E|]. split; [split; auto|].
      assert (Hsd : (sp_degree s <= md)%Z).
      { destruct s as [|t s]; [cbn; lia|]. destruct (leading_spec K (t :: s) R1 ltac:(discriminate)) as [E1 E2]. rewrite E1, R2 in E2.
        pose proof (degree_nonneg K (t :: s) R1). set (D := sp_degree (t :: s)) in *.
        destruct (Z_le_gt_dec D md) as [|G]; [assumption|]. exfalso. apply E2. apply coeff_over. rewrite degree_eq in Hd. lia. }
      destruct (to_dense_spec K md s R1 Hsd) as (l' & E' & R1' & R2'). rewrite E'. f_equal. apply canonical_unique; auto. intros i. rewrite R2', R2. reflexivity.
  Qed.
  Lemma sparse_dense_value (p : Z) (n : nat) (s : list (Z * K)) (l : list K) (md : Z) (x : K) : scanonical s ->
    (sp_degree s < p)%Z -> (sp_degree s <= md)%Z -> sp_to_dense md s = Some l -> sp_evaluate p n s x = Some (eval l x).
  Proof.
    intros Hs Hp Hd E. rewrite sp_evaluate_spec by auto. f_equal. apply seval_dense; [exact Hs|].
    destruct (to_dense_spec K md s Hs Hd) as (l' & E' & R1 & R2). rewrite E in E'. injection E' as <-. exact R2.
  Qed.
  Lemma from_roots_correct (roots : list K) : exists c, from_roots roots = Some c /\ represents c (roots_product roots) /\
    length c = S (length roots) /\ forall x, eval c x = fprod (map (fun r => x - r) roots).
  Proof.
    destruct (from_roots_spec K roots) as (c & E & L & C). exists c. split; [exact E|]. split; [apply from_roots_canonical; exact E|].
    split; [lia|]. intros x. apply eval_of_roots. exact C.
  Qed.
  Lemma lagrange_correct (md threads : Z) (points evals : list K) : points <> [] -> NoDup points ->
    (0 < threads)%Z -> (2 * Z.of_nat (length points) + threads < 2 ^ 64)%Z -> (Z.of_nat (length points) <= md + 1)%Z ->
    (length points <> length evals -> lagrange_interpolate md threads points evals = Some None) /\
    (length points = length evals -> exists l, lagrange_interpolate md threads points evals = Some (Some l) /\ canonical l /\
       (length l <= length points)%nat /\ (forall k, (k < length points)%nat -> eval l (nth k points 0) = nth k evals 0) /\
       forall l', canonical l' -> (length l' <= length points)%nat ->
         (forall k, (k < length points)%nat -> eval l' (nth k points 0) = nth k evals 0) -> l' = l).
  Proof.
    intros Hn Hd Ht Hb Hm. split; [apply interpolate_mismatch|]. intros HL.
    destruct (interpolate_spec K md threads points evals Hn HL Hd Ht Hb Hm) as (l & E & C & L & V). exists l.
    split; [exact E|]. split; [exact C|]. split; [exact L|]. split; [exact V|]. intros l' C' L' V'.
    apply (interpolation_unique K points); auto. intros x Hx. destruct (In_nth _ _ 0 Hx) as (k & Hk & <-). rewrite V, V' by exact Hk. reflexivity.
  Qed.
End E.

Lemma sp_evaluate_wrong : exists (s : list (Z * F7)) (x : F7), scanonical s /\ (sp_degree s = 7)%Z /\ sp_evaluate 7 1 s x <> Some (seval s x).
Proof.
  exists [(7%Z, g7 1)], (g7 3). split; [|split; [reflexivity|]].
  - split; repeat constructor; cbn [fst snd]; try lia. intro H; apply (f_equal (zval 7)) in H; vm_compute in H; discriminate.
  - intro H. apply (f_equal (option_map (zval 7))) in H. vm_compute in H. discriminate.
Qed.
Lemma lagrange_duplicates : exists points evals : list F7, length points = length evals /\ ~ NoDup points /\
  exists l, lagrange_interpolate 10 1 points evals = Some (Some l) /\ forall k, (k < length points)%nat -> eval l (nth k points 0) <> nth k evals 0.
Proof.
  exists [g7 1; g7 1], [g7 2; g7 3]. split; [reflexivity|]. split.
  - intros H. inversion H as [|? ? H1 _]; subst. apply H1. left. reflexivity.
  - exists []. split; [reflexivity|]. intros k Hk. cbn [length] in Hk.
    destruct k as [|[|k]]; [| |lia]; intro H; apply (f_equal (zval 7)) in H; vm_compute in H; discriminate.
Qed.
