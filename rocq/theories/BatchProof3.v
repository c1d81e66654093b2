(** Low-degree extension of all columns of a matrix. *)
From Coq Require Import ZArith List Bool Lia Arith Permutation Ring Field Field_theory.
From Verif Require Import Field BigIntModel BitsModel BitsProof BitsSpec BitsExtra ParallelizeModel ParallelizeSpec ParallelizeProof ParallelizeExtra
  SemigroupModel SemigroupSpec SemigroupProof SemigroupExtra PolyModel PolySpec PolyProof PolyProof3 PolyProof4 FFTModel FFTSpec FFTProof FFTProof2 FFTProof3 FFTProof4 FFTProof5
  FFTExtra BatchProof BatchSpec BatchProof2.
Import ListNotations.
Open Scope nat_scope.

Lemma tiles_flat calls stop : tiles 0 0 calls stop -> flat_map (fun c : Z * Z * Z => seq (Z.to_nat (snd (fst c))) (Z.to_nat (snd c))) calls = seq 0 (Z.to_nat stop).
Proof.
  intros HT. pose proof (tiles_pointwise (fun i => i) calls 0 0 stop ltac:(lia) HT) as E. rewrite Z.sub_0_r, map_id in E. change (Z.to_nat 0) with 0 in E.
  rewrite <- E, flat_map_concat_map. f_equal. apply map_ext. intros c. symmetry. apply map_id.
Qed.
Lemma tiles_inside : forall calls idx pos stop, (0 <= pos)%Z -> tiles idx pos calls stop ->
  forall c, In c calls -> (0 <= snd (fst c))%Z /\ (0 < snd c)%Z /\ (snd (fst c) + snd c <= stop)%Z.
Proof.
  induction calls as [|[[i s] n] cs IH]; intros idx pos stop Hp HT c Hc; [contradiction|]. cbn [tiles] in HT. destruct HT as (-> & -> & Hn & HT).
  pose proof (tiles_le _ _ _ _ HT). destruct Hc as [<-|Hc]; [cbn; lia|]. apply (IH (idx + 1)%Z (pos + n)%Z stop ltac:(lia) HT c Hc).
Qed.

Section Rescale.
  Variable K : fld.
  Add Field Kb3 : (fld_theory K).
  Open Scope fld_scope.
  Implicit Types (shift weight : K).

  Lemma coeffs_unique (xs a b : list K) : NoDup xs -> (length a <= length xs)%nat -> (length b <= length xs)%nat ->
    (forall x, In x xs -> eval a x = eval b x) -> forall i, coeff a i = coeff b i.
  Proof.
    intros HN La Lb H i. rewrite <- (remove_high_coeff K a), <- (remove_high_coeff K b). f_equal.
    apply (interpolation_unique K xs); auto using remove_high_canonical.
    - eapply Nat.le_trans; [apply remove_high_length|]. auto.
    - eapply Nat.le_trans; [apply remove_high_length|]. auto.
    - intros x Hx. rewrite !(eval_ext K (remove_high _) _ _ (remove_high_coeff K _)). apply H. auto.
  Qed.

  Lemma rescale_loop_rows k shift (s0 : K) : (0 < k <= 64)%nat -> forall todo row weight mat, (row + todo <= 2 ^ k)%nat -> weight = s0 * shift ^ row ->
    rescale_loop row_scale (Z.of_nat k) shift weight row todo mat =
    ofold (fun m r => scale_row row_scale (s0 * shift ^ r) m (brev k r)) (seq row todo) mat.
  Proof.
    intros Hk. induction todo as [|todo IH]; intros row weight mat Hb ->; cbn [rescale_loop seq ofold]; [reflexivity|].
    rewrite reverse_bits_len_nat by (auto; lia). rewrite Nat2Z.id. destruct (scale_row _ _ mat (brev k row)); [|reflexivity].
    apply IH; [lia|]. rewrite fpow_S. ring.
  Qed.
  Lemma rescale_run threads sched t d k shift (F : nat -> list K) : (0 < threads < 2 ^ 62)%Z -> (0 < k < 62)%nat -> fair sched -> d_size d = (2 ^ k)%nat -> d_log d = k ->
    rescale row_scale threads sched t d shift (tab F (2 ^ k)) = Some (tab (fun q => row_scale (F q) (d_size_inv d * shift ^ brev k q)) (2 ^ k)).
  Proof.
    intros Ht Hk HF Es El. unfold rescale. rewrite Es, El. set (N := Z.of_nat (2 ^ k)). set (calls := chunk_calls N _).
    pose proof (pow2_small k ltac:(lia)) as Hb. fold N in Hb.
    destruct (container_partition threads N None ltac:(lia) ltac:(unfold N; lia) ltac:(lia)) as [HT _]. fold calls in HT.
    pose proof (HF _ t calls) as P. set (s0 := d_size_inv d).
    rewrite (ofold_ext _ (fun m c => ofold (fun m r => scale_row row_scale (s0 * shift ^ r) m (brev k r)) (seq (Z.to_nat (snd (fst c))) (Z.to_nat (snd c))) m)).
    2:{ intros m [[i s] n] Hc. apply (Permutation_in _ (Permutation_sym P)) in Hc. destruct (tiles_inside calls 0 0 N ltac:(lia) HT _ Hc) as (H1 & H2 & H3). cbn [fst snd] in *.
        apply rescale_loop_rows; [lia|unfold N in *; lia|]. rewrite do_pow_fpow by lia. reflexivity. }
    rewrite <- (ofold_flat (fun m r => scale_row row_scale (s0 * shift ^ r) m (brev k r)) (fun c => seq (Z.to_nat (snd (fst c))) (Z.to_nat (snd c)))).
    assert (P2 : Permutation (seq 0 (2 ^ k)) (flat_map (fun c : Z * Z * Z => seq (Z.to_nat (snd (fst c))) (Z.to_nat (snd c))) (sched (Z * Z * Z)%type t calls))).
    { pose proof (tiles_flat calls N HT) as EF. unfold N in EF. rewrite Nat2Z.id in EF. rewrite <- EF. apply Permutation_flat_map. exact P. }
    apply (single_run (fun x r => row_scale x (s0 * shift ^ r)) (brev k) (2 ^ k)).
    - intros F0 b Hb0. apply scale_row_tab. exact Hb0.
    - eapply Permutation_NoDup; [apply Permutation_map; exact P2|]. apply SemigroupProof.NoDup_map_in; [apply seq_NoDup|].
      intros a b Ha Hb' E. apply in_seq in Ha. apply in_seq in Hb'. apply (brev_inj k); auto; lia.
    - intros b Hb'. apply (Permutation_in _ (Permutation_sym P2)) in Hb'. apply in_seq in Hb'. split; [apply brev_lt|]. rewrite brev_invol by lia. reflexivity.
    - intros x Hx Hn. exfalso. apply Hn. apply in_map_iff. exists (brev k x). split; [apply brev_invol; auto|].
      apply (Permutation_in _ P2). apply in_seq. pose proof (brev_lt k x). lia.
  Qed.
  Lemma expand_run (V : Type) (vz : V) k a (F : nat -> V) : 
    expand_with_zero_pad vz (tab (fun q => F (brev k q)) (2 ^ k)) a =
    Some (tab (fun r => if Nat.ltb (brev (k + a) r) (2 ^ k) then F (brev (k + a) r) else vz) (2 ^ (k + a))).
  Proof.
    unfold expand_with_zero_pad. rewrite tab_length, <- Nat.pow_add_r. apply all_some_tab. intros r Hr. apply in_seq in Hr.
    pose proof (pow2_1 a) as Ha. pose proof (Nat.div_mod r (2 ^ a) ltac:(lia)) as D. pose proof (Nat.mod_upper_bound r (2 ^ a) ltac:(lia)) as M.
    set (q := Nat.div r (2 ^ a)) in *. set (e := Nat.modulo r (2 ^ a)) in *.
    assert (E : brev (k + a) r = (brev a e * 2 ^ k + brev k q)%nat). { rewrite D. rewrite (Nat.mul_comm (2 ^ a)), (Nat.add_comm k a). apply brev_split. auto. }
    rewrite E. destruct (Nat.eqb_spec e 0) as [E0|E0].
    - rewrite E0, brev_0, Nat.mul_0_l, Nat.add_0_l. rewrite (proj2 (Nat.ltb_lt _ _) (brev_lt k q)). apply (tab_nth (fun q => F (brev k q))).
      unfold q. apply Nat.div_lt_upper_bound; [lia|]. rewrite <- Nat.pow_add_r, (Nat.add_comm a k). lia.
    - replace (Nat.ltb _ _) with false; [reflexivity|]. symmetry. apply Nat.ltb_ge.
      assert (brev a e <> 0)%nat. { intros Hz. apply E0. rewrite <- (brev_invol a e) by auto. rewrite Hz. apply brev_0. }
      assert (1 * 2 ^ k <= brev a e * 2 ^ k)%nat by (apply Nat.mul_le_mono_r; lia). lia.
  Qed.
End Rescale.

Section Lde.
  Variable K : fld.
  Add Field Kb4 : (fld_theory K).
  Open Scope fld_scope.
  Variables (adicity : nat) (root : K) (k a : nat) (h : K) (d : domain K) (cols : nat).
  Hypothesis Ha : (adicity < 62)%nat.
  Hypothesis HP : primitive_root root (2 ^ adicity).
  Hypothesis Hk : (0 < k)%nat.
  Hypothesis Hka : (k + a <= adicity)%nat.
  Hypothesis HR : radix2_domain adicity root k h d.
  Notation g := (generator adicity root k).
  Notation g2 := (generator adicity root (k + a)).
  Variables (threads : Z) (sched : scheduler) (it : item K) (po : bool).
  Hypothesis Ht : (0 < threads < 2 ^ 62)%Z.
  Hypothesis HS : schedules sched.
  Hypothesis HI : complete_item true po k g it.
  Hypothesis Hne : it_roots it <> [].

  Lemma Hkd : (0 < k <= adicity)%nat. Proof using Hk Hka. clear - Hk Hka. lia. Qed.

  (** The values of [P] on the subgroup determine its coefficients. *)
  Lemma dft_coeff (P : nat -> list K) mat : is_matrix (2 ^ k) cols mat -> column_polys (2 ^ k) cols g mat P -> forall j, (j < 2 ^ k)%nat ->
    row_scale (vdft K cols (entry mat) (finv g) k j) (finv (fnat (2 ^ k))) = map (fun c => coeff (P c) j) (seq 0 cols).
  Proof.
    intros HM HPc j Hj. destruct (rdom_ok K _ _ _ _ _ Ha HP (proj2 Hkd) HR) as [HD HG].
    unfold row_scale, vdft. rewrite map_map. apply tab_ext. intros c Hc. destruct (HPc c Hc) as [HL HE].
    assert (LV : length (values_on (P c) 1 g (2 ^ k)) = (2 ^ k)%nat) by apply (tab_length (fun i => eval (P c) (1 * g ^ i))).
    assert (EV : forall t, (t < 2 ^ k)%nat -> coeff (values_on (P c) 1 g (2 ^ k)) t = entry mat t c).
    { intros t Ht0. unfold values_on. rewrite coeff_map_seq, (proj2 (Nat.ltb_lt _ _) Ht0), <- HE by auto. f_equal. ring. }
    pose proof (inverse_values K k g 1 _ HG (f1_neq_0 K) LV) as V.
    assert (E1 : forall i, coeff (remove_high (tab (inverse_coeff K k g 1 (values_on (P c) 1 g (2 ^ k))) (2 ^ k))) i = coeff (P c) i).
    { apply (coeffs_unique K (map (fun i => 1 * g ^ i) (seq 0 (2 ^ k)))).
      - apply points_nodup; [exact HG|apply f1_neq_0].
      - rewrite tab_length. eapply Nat.le_trans; [apply remove_high_length|]. rewrite tab_length. auto.
      - rewrite tab_length. auto.
      - intros x Hx. apply in_map_iff in Hx. destruct Hx as (i & <- & Hi). apply in_seq in Hi.
        assert (N : forall l : list K, nth_error (values_on l 1 g (2 ^ k)) i = Some (eval l (1 * g ^ i))) by (intros l; apply (tab_nth (fun i => eval l (1 * g ^ i))); lia).
        pose proof (N (P c)) as N1. rewrite <- V in N1 at 1. rewrite N in N1. congruence. }
    rewrite <- E1, remove_high_coeff, coeff_map_seq, (proj2 (Nat.ltb_lt _ _) Hj). unfold inverse_coeff.
    replace (finv 1 ^ j) with (1 : K) by (replace (finv 1) with (1 : K) by (apply finv_unique; ring); symmetry; apply fpow_one).
    rewrite (fsum_map_ext K (fun t => coeff (values_on (P c) 1 g (2 ^ k)) t * finv g ^ (j * t)) (fun m => entry mat m c * finv g ^ (j * m))).
    - ring.
    - intros t Hin. apply in_seq in Hin. rewrite EV by lia. reflexivity.
  Qed.

  Lemma lde_spec (shift : K) mat (P : nat -> list K) out_rows (rev : bool) : is_matrix (2 ^ k) cols mat -> column_polys (2 ^ k) cols g mat P ->
    (a = 0%nat \/ out_rows = (2 ^ (k + a))%nat) ->
    coset_lde_batch row_bf row_scale (repeat (0 : K) cols) true threads sched adicity root d it mat a shift out_rows rev =
    Some (matrix (2 ^ (k + a)) cols (fun i c => eval (P c) (shift * g2 ^ (if rev then i else brev (k + a) i)))).
  Proof.
    intros HM HPc Hout. destruct (rdom_ok K _ _ _ _ _ Ha HP (proj2 Hkd) HR) as [HD HG]. pose proof (primitive_unity K _ _ HG) as HU.
    destruct (tables K adicity root k (conj Hk (proj2 Hkd)) true it po eq_refl HI) as (_ & T2 & _ & T4).
    unfold coset_lde_batch. rewrite (gate_ok K adicity root k h d Ha HP Hkd HR it Hne) by apply HM. rewrite T2, T4.
    rewrite (matrix_eta K _ _ mat HM) at 1. unfold matrix at 1. rewrite reverse_rows_tab by (auto; lia).
    destruct (core_run K cols sched 1 2 3 d (entry mat) (finv g) k HS ltac:(lia) (unity_inv K _ _ HU) (do_log _ _ _ _ _ HD) (do_size _ _ _ _ _ HD)) as (m1 & m2 & E1 & E2 & E3).
    rewrite E1, E2, E3. assert (Hk62 : (0 < k < 62)%nat) by lia.
    rewrite (rescale_run K threads sched 4 d k shift _ Ht Hk62 HS (do_size _ _ _ _ _ HD) (do_log _ _ _ _ _ HD)).
    rewrite (do_sinv _ _ _ _ _ HD).
    set (C := fun j => map (fun c => coeff (P c) j * shift ^ j) (seq 0 cols)).
    rewrite (tab_ext _ (fun q => C (brev k q))).
    2:{ intros q Hq. pose proof (brev_lt k q) as Hb. unfold C. rewrite <- (map_map (fun c => coeff (P c) (brev k q)) (fun x => x * shift ^ brev k q)).
        rewrite <- (dft_coeff P mat HM HPc _ Hb). unfold row_scale. rewrite map_map. apply map_ext. intros x. ring. }
    set (n2 := (2 ^ (k + a))%nat).
    assert (EX : (if Nat.eqb a 0 then Some (tab (fun q => C (brev k q)) (2 ^ k))
                  else if Nat.eqb out_rows (length (tab (fun q => C (brev k q)) (2 ^ k)) * 2 ^ a) then expand_with_zero_pad (repeat 0 cols) (tab (fun q => C (brev k q)) (2 ^ k)) a else None) =
                 Some (tab (fun r => if Nat.ltb (brev (k + a) r) (2 ^ k) then C (brev (k + a) r) else repeat 0 cols) n2)).
    { destruct (Nat.eqb_spec a 0) as [E0|E0].
      - unfold n2. rewrite E0, Nat.add_0_r. f_equal. apply tab_ext. intros r _. rewrite (proj2 (Nat.ltb_lt _ _) (brev_lt k r)). reflexivity.
      - destruct Hout as [?|Hout]; [contradiction|]. rewrite tab_length, <- Nat.pow_add_r, Hout, Nat.eqb_refl. apply expand_run. }
    rewrite EX. clear EX. rewrite tab_length. unfold n2 at 1 2. rewrite checked_log2_pow2 by lia. rewrite Nat2Z.id.
    destruct (new_domain_ok K adicity root (k + a) ltac:(lia) Hka HP) as (HG2 & d2 & Ed2 & HD2). rewrite Ed2.
    destruct (build_item_ok K true threads sched d2 true (k + a) _ 1 Ht ltac:(lia) HS HD2) as (it2 & Ei2 & HI2). rewrite Ei2.
    apply complete_iff in HI2.
    destruct (tables K adicity root (k + a) (conj (Nat.lt_lt_add_r _ _ _ Hk) Hka) true it2 true eq_refl HI2) as (U1 & _ & U3 & _). rewrite U1, U3.
    set (A := fun i c => if Nat.ltb i (2 ^ k) then coeff (P c) i * shift ^ i else 0).
    rewrite (tab_ext _ (fun r => map (fun c => A (brev (k + a) r) c) (seq 0 cols))).
    2:{ intros r _. unfold A. destruct (Nat.ltb (brev (k + a) r) (2 ^ k)); [reflexivity|].
        clear. generalize 0%nat. induction cols; intros s; cbn [repeat seq map]; [reflexivity|]. f_equal. apply IHn. }
    destruct (core_run K cols sched 5 6 7 d2 A g2 (k + a) HS ltac:(lia) (primitive_unity K _ _ HG2) (do_log _ _ _ _ _ HD2) (do_size _ _ _ _ _ HD2)) as (m3 & m4 & F1 & F2 & F3).
    unfold n2. rewrite F1, F2, F3.
    assert (EV : forall p, vdft K cols A g2 (k + a) p = map (fun c => eval (P c) (shift * g2 ^ p)) (seq 0 cols)).
    { intros p. unfold vdft. apply tab_ext. intros c Hc. destruct (HPc c Hc) as [HL _].
      assert (2 ^ k <= 2 ^ (k + a))%nat by (apply Nat.pow_le_mono_r; lia).
      rewrite (eval_coeffs K _ _ (2 ^ (k + a))) by lia. apply fsum_map_ext. intros m _. unfold A. rewrite fpow_mul_base, <- fpow_mul.
      destruct (Nat.ltb_spec m (2 ^ k)); [ring|]. rewrite (coeff_over K (P c) m) by lia. ring. }
    destruct rev.
    - rewrite reverse_rows_tab by (auto; lia). f_equal. apply tab_ext. intros i Hi. rewrite brev_invol by auto. apply EV.
    - f_equal. apply tab_ext. intros i Hi. apply EV.
  Qed.
End Lde.
