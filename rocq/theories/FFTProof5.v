(** Creating domains and twiddle tables; the round trips. *)
From Coq Require Import ZArith List Bool Lia Arith Permutation Ring Field Field_theory.
From Verif Require Import Field BigIntModel BitsModel BitsProof BitsSpec BitsExtra ParallelizeModel ParallelizeSpec ParallelizeProof ParallelizeExtra
  SemigroupModel SemigroupSpec SemigroupProof SemigroupExtra PolyModel PolySpec PolyProof PolyProof3 PolyProof4 FFTModel FFTSpec FFTProof FFTProof2 FFTProof3 FFTProof4.
Import ListNotations.
Open Scope nat_scope.

Lemma log2_ceiling_pow2 s : s < 64 -> log2_ceiling 64 (Z.of_nat (2 ^ s)) = Z.of_nat s.
Proof.
  intros Hs. rewrite (log2_ceiling_spec 64).
  - rewrite pow2_Z. apply Z.log2_up_pow2. lia.
  - change (Z.of_nat 64) with 64%Z. pose proof (pow2_1 s). rewrite pow2_Z.
    split; [rewrite <- pow2_Z; lia|apply Z.pow_lt_mono_r; lia].
Qed.

Section Dom5.
  Variable K : fld.
  Add Field Kf : (fld_theory K).
  Open Scope fld_scope.
  Implicit Types (w h g : K) (a f : nat -> K) (d : domain K) (it : item K).

  Lemma iter_square (n : nat) (x : K) : Nat.iter n (fun x => x * x) x = x ^ (2 ^ n).
  Proof.
    induction n; [cbn [Nat.iter nat_rect Nat.pow]; rewrite fpow_1; reflexivity|].
    replace (2 ^ S n)%nat with (2 ^ n + 2 ^ n)%nat by (cbn [Nat.pow]; lia). rewrite fpow_add, <- IHn. reflexivity.
  Qed.
  Lemma primitive_sub w (a b : nat) : primitive_root w (2 ^ (a + b)) -> primitive_root (w ^ (2 ^ a)) (2 ^ b).
  Proof.
    intros [H1 H2]. split.
    - rewrite <- fpow_mul, <- Nat.pow_add_r. exact H1.
    - intros i Hi E. rewrite <- fpow_mul in E. apply (H2 (2 ^ a * i)%nat); [|exact E].
      pose proof (pow2_1 a). rewrite Nat.pow_add_r. nia.
  Qed.
  Lemma root_spec adicity (root : K) k : (adicity < 64)%nat -> (k <= adicity)%nat ->
    get_root_of_unity adicity root (Z.of_nat (2 ^ k)) = Some (root ^ (2 ^ (adicity - k))).
  Proof.
    intros Ha Hk. unfold get_root_of_unity. rewrite log2_ceiling_pow2 by lia.
    replace (Z.of_nat k <? 0)%Z with false by (symmetry; apply Z.ltb_ge; lia).
    rewrite pow2_Z, Z.eqb_refl. replace (Z.of_nat k <=? Z.of_nat adicity)%Z with true by (symmetry; apply Z.leb_le; lia).
    cbn [andb]. rewrite Nat2Z.id, iter_square. reflexivity.
  Qed.
  Lemma primitive_neq0 g n : (0 < n)%nat -> primitive_root g n -> g <> 0.
  Proof. intros Hn [H _] ->. rewrite fpow_0 in H by auto. apply (f1_neq_0 K). auto. Qed.
  Lemma finv_1 : finv (1 : K) = 1. Proof. field. apply f1_neq_0. Qed.
  Lemma fnat_pow2_prim g k : primitive_root g (2 ^ k) -> fnat (K := K) (2 ^ k) <> 0.
  Proof.
    intros H. destruct k.
    - cbn [Nat.pow fnat]. intros E. apply (f1_neq_0 K). rewrite <- E. ring.
    - apply fnat_pow2. apply (primitive_char K g (S k)); [lia|exact H].
  Qed.
  (** A domain of a size the field supports can always be made, and it holds a primitive root. *)
  Lemma new_domain_ok adicity (root : K) k : (adicity < 64)%nat -> (k <= adicity)%nat -> primitive_root root (2 ^ adicity) ->
    let g := root ^ (2 ^ (adicity - k)) in
    primitive_root g (2 ^ k) /\ exists d, new_domain adicity root (2 ^ k) k = Some d /\ dom_ok K k g 1 d.
  Proof.
    intros Ha Hk HP g.
    assert (HG : primitive_root g (2 ^ k)). { apply primitive_sub. replace (adicity - k + k)%nat with adicity by lia. exact HP. }
    split; [exact HG|].
    assert (Hm : fnat (K := K) (2 ^ k) <> 0) by (apply (fnat_pow2_prim g); auto).
    assert (Hg0 : g <> 0) by (apply (primitive_neq0 g (2 ^ k)); auto; pose proof (pow2_1 k); lia).
    unfold new_domain. rewrite (proj2 (feqb_neq K _ _) Hm), (root_spec adicity root k) by auto. fold g. rewrite (proj2 (feqb_neq K _ _) Hg0).
    eexists. split; [reflexivity|]. constructor; cbn [d_size d_log d_size_elem d_size_inv d_gen d_gen_inv d_off d_off_inv d_off_pow]; auto.
    - apply primitive_unity. exact HG.
    - apply f1_neq_0.
    - symmetry. apply finv_1.
    - rewrite fpow_one. reflexivity.
  Qed.
  Lemma root_too_large adicity (root : K) k : (adicity < k)%nat -> (k < 64)%nat -> get_root_of_unity adicity root (Z.of_nat (2 ^ k)) = None.
  Proof.
    intros Ha Hk. unfold get_root_of_unity. rewrite log2_ceiling_pow2 by lia.
    replace (Z.of_nat k <? 0)%Z with false by (symmetry; apply Z.ltb_ge; lia).
    replace (Z.of_nat k <=? Z.of_nat adicity)%Z with false by (symmetry; apply Z.leb_gt; lia). rewrite andb_false_r. reflexivity.
  Qed.
  Lemma new_domain_too_large adicity (root : K) k : (adicity < k)%nat -> (k < 64)%nat -> new_domain adicity root (2 ^ k) k = None.
  Proof. intros Ha Hk. unfold new_domain. rewrite root_too_large by auto. destruct (feqb _ _); reflexivity. Qed.
  Lemma create_domain_eq adicity (root : K) n : (Z.of_nat n <= 2 ^ 63)%Z ->
    create_domain adicity root n = new_domain adicity root (2 ^ Nat.log2_up n) (Nat.log2_up n).
  Proof.
    intros Hn. unfold create_domain, bit_ceil. f_equal. destruct n as [|n]; [reflexivity|].
    destruct (safe_log2_nat (S n) ltac:(lia) ltac:(lia)) as [H1 H2]. set (l := Z.to_nat _) in *.
    destruct (Nat.eq_dec n 0) as [->|]; [specialize (H2 0%nat); cbn in *; lia|].
    pose proof (Nat.log2_up_spec (S n) ltac:(lia)) as [L1 L2]. specialize (H2 _ L2).
    enough (Nat.pred (Nat.log2_up (S n)) < l)%nat by lia. apply (Nat.pow_lt_mono_r_iff 2); lia.
  Qed.
  Lemma get_coset_ok k g h0 h d : (k < 64)%nat -> dom_ok K k g h0 d -> h <> 0 -> exists d', get_coset d h = Some d' /\ dom_ok K k g h d'.
  Proof.
    intros Hk HD Hh. unfold get_coset. rewrite (proj2 (feqb_neq K _ _) Hh). eexists. split; [reflexivity|].
    destruct HD. constructor; cbn [d_size d_log d_size_elem d_size_inv d_gen d_gen_inv d_off d_off_inv d_off_pow]; auto.
    rewrite do_size. rewrite do_pow_fpow, Nat2Z.id; [reflexivity|].
    split; [lia|]. rewrite pow2_Z. apply Z.pow_lt_mono_r; lia.
  Qed.

  (** ** Twiddle tables *)
  Lemma powers_spec threads size g : (0 < threads)%Z -> (2 * Z.of_nat size + threads < 2 ^ 64)%Z ->
    get_successive_powers (1 : K) fmul (fun y => y * y) (fun x => feqb x 1) threads 0 size g 1 = Some (tab (fun i => g ^ i) size).
  Proof.
    intros Ht Hb. rewrite (successive_powers_spec (1 : K) fmul (fun y => y * y) (fld_monoid K)); auto.
    - f_equal. apply map_ext. intros i. rewrite times_fpow. ring.
    - intros y. exact (feqb_eq K y 1).
    - apply fld_comm.
  Qed.
  Lemma elements_spec threads d k g h : (0 < threads)%Z -> (2 * Z.of_nat (2 ^ k) + threads < 2 ^ 64)%Z -> dom_ok K k g h d ->
    get_elements threads d = Some (tab (fun i => h * g ^ i) (2 ^ k)).
  Proof.
    intros Ht Hb HD. unfold get_elements. rewrite (successive_powers_spec (1 : K) fmul (fun y => y * y) (fld_monoid K)); auto.
    - rewrite (do_size _ _ _ _ _ HD), (do_gen _ _ _ _ _ HD), (do_off _ _ _ _ _ HD). f_equal. apply map_ext. intros i. rewrite times_fpow. reflexivity.
    - intros y. exact (feqb_eq K y 1).
    - apply fld_comm.
    - rewrite (do_size _ _ _ _ _ HD). exact Hb.
  Qed.
  Lemma element_spec d k g h i : dom_ok K k g h d -> (0 <= i < 2 ^ 64)%Z -> get_element d i = h * g ^ (Z.to_nat i).
  Proof.
    intros HD Hi. unfold get_element. rewrite (do_gen _ _ _ _ _ HD), (do_ginv _ _ _ _ _ HD), (do_off _ _ _ _ _ HD).
    assert (E : (if (0 <? i)%Z then do_pow 1 fmul (fun y => y * y) [i] g else do_pow 1 fmul (fun y => y * y) [(- i)%Z] (finv g)) = g ^ Z.to_nat i).
    { destruct (Z.ltb_spec 0 i).
      - apply do_pow_fpow. lia.
      - assert (i = 0%Z) by lia. subst i. rewrite do_pow_fpow by lia. reflexivity. }
    rewrite E. destruct (feqb h 1) eqn:Eh; [apply feqb_eq in Eh; rewrite Eh; ring|ring].
  Qed.
  Lemma strided_spec g n i count : (2 ^ i * count <= n + 2 ^ i - 1)%nat -> (0 < count -> 2 ^ i * (count - 1) < n)%nat ->
    strided (tab (fun j => g ^ j) n) i count = Some (tab (fun j => g ^ (2 ^ i * j)) count).
  Proof.
    intros _ H. unfold strided. apply (all_some_tab _ (fun j => g ^ (2 ^ i * j))). intros j Hj. apply in_seq in Hj.
    apply (tab_nth (fun j => g ^ j)). assert (2 ^ i * j <= 2 ^ i * (count - 1))%nat by (apply Nat.mul_le_mono_l; lia). lia.
  Qed.
  Lemma strided_pow k i g : (i < k)%nat -> 
    strided (tab (fun j => g ^ j) (2 ^ (k - 1))) i (Nat.div (2 ^ k) (2 ^ i * 2)) = Some (tab (fun j => g ^ (2 ^ i * j)) (2 ^ (k - 1 - i))).
  Proof.
    intros Hi. replace (Nat.div (2 ^ k) (2 ^ i * 2)) with (2 ^ (k - 1 - i))%nat.
    2:{ symmetry. replace (2 ^ k)%nat with (2 ^ (k - 1 - i) * (2 ^ i * 2))%nat; [apply Nat.div_mul; pose proof (pow2_1 i); lia|].
        replace (2 ^ i * 2)%nat with (2 ^ (S i))%nat by (cbn [Nat.pow]; lia). rewrite <- Nat.pow_add_r. f_equal. lia. }
    assert (E : (2 ^ (k - 1) = 2 ^ i * 2 ^ (k - 1 - i))%nat) by (rewrite <- Nat.pow_add_r; f_equal; lia).
    pose proof (pow2_1 i). pose proof (pow2_1 (k - 1 - i)). apply strided_spec; rewrite E; [lia|intros; nia].
  Qed.

  (** Everything the constructor of a cache item fills in. *)
  Record item_full (small packed_only : bool) (k : nat) g it : Prop := {
    if_roots : packed_only = false -> tables_ok K k g (it_roots it);
    if_inv : packed_only = false -> inv_tables_ok K k (finv g) (it_inv it);
    if_last : (0 < k)%nat -> it_roots it <> [] /\ last (it_roots it) [] = tab (fun j => g ^ j) (2 ^ (k - 1));
    if_first : (0 < k)%nat -> hd [] (it_inv it) = tab (fun j => (finv g) ^ j) (2 ^ (k - 1));
    if_rev : (0 < k)%nat -> small = true -> it_bitrev it = tab (fun j => g ^ (brev (k - 1) j)) (2 ^ (k - 1));
    if_rev_inv : (0 < k)%nat -> small = true -> it_bitrev_inv it = tab (fun j => (finv g) ^ (brev (k - 1) j)) (2 ^ (k - 1));
    if_zero : k = 0%nat -> it = mk_item [] [] [] [] None;
    if_packed : (0 < k)%nat -> it_packed_only it = Some packed_only }.

  Lemma rev_seq_nth n s : (s < n)%nat -> nth_error (rev (seq 1 n)) s = Some (n - s)%nat.
  Proof.
    intros H. rewrite (nth_error_nth' _ 0%nat) by (rewrite rev_length, seq_length; auto).
    rewrite rev_nth by (rewrite seq_length; auto). rewrite seq_length, seq_nth by lia. f_equal. lia.
  Qed.
  Lemma build_item_ok small threads sched d packed_only k g h : (0 < threads < 2 ^ 62)%Z -> (k < 62)%nat -> fair sched ->
    dom_ok K k g h d -> exists it, build_item small threads sched d packed_only = Some it /\ item_full small packed_only k g it.
  Proof.
    intros Ht Hk HF HD. unfold build_item. rewrite (do_log _ _ _ _ _ HD), (do_size _ _ _ _ _ HD).
    destruct k as [|k].
    { eexists. split; [reflexivity|]. constructor; try (intros; lia); try reflexivity.
      - intros _ s Hs. lia.
      - intros _ s Hs. lia. }
    set (n := S k) in *. replace (Nat.eqb n 0) with false by reflexivity. cbv zeta.
    replace (Nat.div (2 ^ n) 2) with (2 ^ (n - 1))%nat.
    2:{ unfold n. replace (2 ^ S k)%nat with (2 ^ k * 2)%nat by (cbn [Nat.pow]; lia). rewrite Nat.div_mul by lia. f_equal. lia. }
    pose proof (pow2_small n Hk) as Hb.
    assert (Hle : (2 ^ (n - 1) <= 2 ^ n)%nat) by (apply Nat.pow_le_mono_r; lia).
    rewrite (do_gen _ _ _ _ _ HD), (do_ginv _ _ _ _ _ HD). rewrite !powers_spec by lia.
    assert (ER : forall t (u : K), exists r, (if small then swap_bitrev_elements sched t (tab (fun i => u ^ i) (2 ^ (n - 1))) else Some []) = Some r /\
                (small = true -> r = tab (fun j => u ^ (brev (n - 1) j)) (2 ^ (n - 1)))).
    { intros t u. destruct small.
      - eexists. split; [apply (swap_elements sched t (n - 1) (fun i => u ^ i)); auto; lia|]. intros _. reflexivity.
      - eexists. split; [reflexivity|]. discriminate. }
    destruct (ER 0%nat g) as (br & -> & Hbr). destruct (ER 1%nat (finv g)) as (bri & -> & Hbri). clear ER.
    destruct packed_only.
    - eexists. split; [reflexivity|]. constructor; cbn [it_roots it_inv it_bitrev it_bitrev_inv it_packed_only]; try discriminate; auto.
      + intros _. split; [destruct (repeat _ _); discriminate|]. apply last_last.
    - rewrite (all_some_tab _ (fun i => tab (fun j => g ^ (2 ^ i * j)) (2 ^ (n - 1 - i)))).
      2:{ intros i Hi. apply in_rev in Hi. apply in_seq in Hi. apply strided_pow. lia. }
      rewrite (all_some_tab _ (fun i => tab (fun j => (finv g) ^ (2 ^ i * j)) (2 ^ (n - 1 - i)))).
      2:{ intros i Hi. apply in_seq in Hi. apply strided_pow. lia. }
      eexists. split; [reflexivity|]. constructor; cbn [it_roots it_inv it_bitrev it_bitrev_inv it_packed_only]; try discriminate; auto.
      + intros _ s Hs. destruct (Nat.eq_dec s (n - 1)) as [->|Hne].
        * rewrite nth_error_app2 by (rewrite map_length, rev_length, seq_length; lia).
          rewrite map_length, rev_length, seq_length. rewrite Nat.sub_diag. cbn [nth_error]. f_equal.
          apply tab_ext. intros j _. rewrite ?Nat.sub_diag. cbn [Nat.pow]. rewrite Nat.mul_1_l. reflexivity.
        * rewrite nth_error_app1 by (rewrite map_length, rev_length, seq_length; lia).
          rewrite nth_error_map, rev_seq_nth by lia. cbn [option_map]. f_equal.
          replace (n - 1 - (n - 1 - s))%nat with s by lia. reflexivity.
      + intros _ s Hs. destruct s as [|s].
        * cbn [nth_error]. f_equal. rewrite Nat.sub_0_r. apply tab_ext. intros j _. cbn [Nat.pow]. rewrite Nat.mul_1_l. reflexivity.
        * cbn [nth_error]. rewrite nth_error_map. rewrite (nth_error_nth' _ 0%nat) by (rewrite seq_length; lia).
          rewrite seq_nth by lia. cbn [option_map plus]. reflexivity.
      + intros _. split; [intros E; apply app_eq_nil in E; destruct E; discriminate|]. apply last_last.
  Qed.
  Lemma item_full_ok small k g it : item_full small false k g it -> item_ok K k g it.
  Proof. intros H. constructor; apply H; reflexivity. Qed.

  (** ** Round trips *)
  Lemma primitive_inj g h n i j : primitive_root g n -> h <> 0 -> (i < n)%nat -> (j < n)%nat -> h * g ^ i = h * g ^ j -> i = j.
  Proof.
    intros HP Hh Hi Hj E. apply (fmul_cancel_l K h _ _ Hh) in E. pose proof (primitive_neq0 g n ltac:(lia) HP) as Hg.
    destruct HP as [_ HP].
    assert (W : forall i j : nat, (i <= j)%nat -> (j < n)%nat -> g ^ i = g ^ j -> i = j).
    { clear - HP Hg. intros i j Hij Hj E. destruct (Nat.eq_dec i j) as [|Hne]; [auto|]. exfalso.
      apply (HP (j - i)%nat ltac:(lia)). replace j with (i + (j - i))%nat in E by lia. rewrite fpow_add in E.
      apply (fmul_cancel_l K (g ^ i)); [apply fpow_neq0; auto|]. rewrite <- E. ring. }
    destruct (Nat.le_gt_cases i j); [apply W; auto|symmetry; apply W; auto; lia].
  Qed.
  Lemma points_nodup g h n : primitive_root g n -> h <> 0 -> NoDup (map (fun i => h * g ^ i) (seq 0 n)).
  Proof.
    intros HP Hh. assert (W : forall l, NoDup l -> (forall x, In x l -> (x < n)%nat) -> NoDup (map (fun i => h * g ^ i) l)).
    { intros l. induction l as [|x l IH]; intros Hn Hl; cbn [map]; [constructor|]. inversion Hn; subst. constructor.
      - intros Hin. apply in_map_iff in Hin. destruct Hin as (y & E & Hy).
        assert (y = x) by (apply (primitive_inj g h n); auto; apply Hl; [right|left]; auto). subst y. contradiction.
      - apply IH; auto. intros y Hy. apply Hl. right. auto. }
    apply W; [apply seq_NoDup|]. intros x Hx. apply in_seq in Hx. lia.
  Qed.

  Definition inverse_coeff k g h (e : list K) (i : nat) : K :=
    finv (fnat (2 ^ k)) * (finv h) ^ i * fsum (map (fun t => coeff e t * (finv g) ^ (i * t)) (seq 0 (2 ^ k))).

  (** The interpolant takes the given values. *)
  Lemma inverse_values k g h (e : list K) : primitive_root g (2 ^ k) -> h <> 0 -> length e = (2 ^ k)%nat ->
    values_on (remove_high (tab (inverse_coeff k g h e) (2 ^ k))) h g (2 ^ k) = e.
  Proof.
    intros HP Hh He. set (n := (2 ^ k)%nat) in *.
    assert (Hn : fnat (K := K) n <> 0) by (apply (fnat_pow2_prim g); auto).
    transitivity (tab (coeff e) n). 2:{ symmetry. rewrite <- He. apply list_coeff. } unfold values_on. apply tab_ext. intros j Hj.
    rewrite (eval_ext K _ (tab (inverse_coeff k g h e) n)) by (intros; apply remove_high_coeff).
    rewrite (eval_coeffs K _ _ n) by (rewrite tab_length; lia).
    rewrite (fsum_map_ext K _ (fun i => fsum (map (fun t => finv (fnat n) * (coeff e t * (g ^ (i * j) * (finv g) ^ (t * i)))) (seq 0 n)))).
    2:{ intros i Hi. apply in_seq in Hi. rewrite coeff_map_seq. replace (Nat.ltb i n) with true by (symmetry; apply Nat.ltb_lt; lia).
        unfold inverse_coeff. fold n. rewrite fpow_mul_base.
        assert (Ehh : finv h ^ i * h ^ i = 1) by (rewrite <- fpow_mul_base, finv_l by auto; apply fpow_one).
        transitivity (finv (fnat n) * (finv h ^ i * h ^ i) * (g ^ j) ^ i * fsum (map (fun t => coeff e t * finv g ^ (i * t)) (seq 0 n))); [ring|].
        rewrite Ehh. rewrite <- fsum_map_mul. apply fsum_map_ext. intros t _. rewrite <- fpow_mul, (Nat.mul_comm j i), (Nat.mul_comm t i). ring. }
    rewrite fsum_swap. rewrite (fsum_single K _ n j Hj).
    - rewrite fsum_map_mul. rewrite fsum_map_mul. rewrite (ortho K g n j j) by (auto; lia). rewrite Nat.eqb_refl.
      transitivity (finv (fnat n) * fnat n * coeff e j); [ring|]. rewrite finv_l by auto. ring.
    - intros t Ht Hne. rewrite fsum_map_mul. rewrite fsum_map_mul. rewrite (ortho K g n j t) by (auto; lia).
      replace (Nat.eqb j t) with false by (symmetry; apply Nat.eqb_neq; lia). ring.
  Qed.
  (** Interpolating the values of a polynomial gives it back. *)
  Lemma values_inverse k g h (l : list K) : primitive_root g (2 ^ k) -> h <> 0 -> canonical l -> (length l <= 2 ^ k)%nat ->
    remove_high (tab (inverse_coeff k g h (values_on l h g (2 ^ k))) (2 ^ k)) = l.
  Proof.
    intros HP Hh Hc Hl. apply (interpolation_unique K (map (fun i => h * g ^ i) (seq 0 (2 ^ k)))).
    - apply points_nodup; auto.
    - apply remove_high_canonical.
    - exact Hc.
    - rewrite map_length, seq_length. eapply Nat.le_trans; [apply remove_high_length|]. rewrite tab_length. auto.
    - rewrite map_length, seq_length. auto.
    - intros x Hx. apply in_map_iff in Hx. destruct Hx as (i & <- & Hi). apply in_seq in Hi.
      assert (Len : length (values_on l h g (2 ^ k)) = (2 ^ k)%nat) by apply (tab_length (fun i => eval l (h * g ^ i)) (2 ^ k)).
      pose proof (inverse_values k g h (values_on l h g (2 ^ k)) HP Hh Len) as V.
      assert (N1 : nth_error (values_on l h g (2 ^ k)) i = Some (eval l (h * g ^ i))) by (apply (tab_nth (fun i => eval l (h * g ^ i))); lia).
      set (e := values_on l h g (2 ^ k)) in *. set (r := remove_high (tab (inverse_coeff k g h e) (2 ^ k))) in *.
      assert (N2 : nth_error (values_on r h g (2 ^ k)) i = Some (eval r (h * g ^ i))) by (apply (tab_nth (fun i => eval r (h * g ^ i))); lia).
      rewrite V in N2. congruence.
  Qed.
End Dom5.
