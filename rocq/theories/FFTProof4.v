(** FFT and IFFT of a domain. *)
From Coq Require Import ZArith List Bool Lia Arith Permutation Ring Field Field_theory.
From Verif Require Import Field BigIntModel BitsModel BitsProof BitsSpec BitsExtra ParallelizeModel ParallelizeSpec ParallelizeProof ParallelizeExtra
  SemigroupModel SemigroupSpec SemigroupProof SemigroupExtra PolyModel PolySpec PolyProof PolyProof3 PolyProof4 FFTModel FFTSpec FFTProof FFTProof2 FFTProof3.
Import ListNotations.
Open Scope nat_scope.

(** ** Logarithms *)
Lemma safe_log2_nat m : 0 < m -> (Z.of_nat m < 2 ^ 64)%Z ->
  let d := Z.to_nat (safe_log2_ceiling 64 (Z.of_nat m)) in m <= 2 ^ d /\ forall k, m <= 2 ^ k -> d <= k.
Proof.
  intros Hm Hb. cbv zeta. unfold safe_log2_ceiling.
  rewrite (log2_ceiling_spec 64) by (change (Z.of_nat 64) with 64%Z; lia).
  pose proof (Z.log2_up_nonneg (Z.of_nat m)). rewrite Z.max_l by lia. split.
  - apply Nat2Z.inj_le. rewrite pow2_Z, Z2Nat.id by lia.
    destruct (Z.eq_dec (Z.of_nat m) 1) as [->|]; [cbn; lia|]. apply Z.log2_up_spec. lia.
  - intros k Hk. assert (Z.of_nat m <= 2 ^ Z.of_nat k)%Z by (rewrite <- pow2_Z; lia).
    assert (Z.log2_up (Z.of_nat m) <= Z.of_nat k)%Z; [|lia].
    rewrite <- (Z.log2_up_pow2 (Z.of_nat k)) by lia. apply Z.log2_up_le_mono. lia.
Qed.
Lemma safe_log2_pow2 s : s < 64 -> Z.to_nat (safe_log2_ceiling 64 (Z.of_nat (2 ^ s))) = s.
Proof.
  intros Hs. assert (Hb : (Z.of_nat (2 ^ s) < 2 ^ 64)%Z) by (rewrite pow2_Z; apply Z.pow_lt_mono_r; lia).
  destruct (safe_log2_nat (2 ^ s) ltac:(pose proof (pow2_1 s); lia) Hb) as [H1 H2].
  specialize (H2 s (le_n _)). apply (Nat.pow_le_mono_r_iff 2) in H1; lia.
Qed.
Lemma checked_log2_pow2 s : s < 64 -> checked_log2 64 (Z.of_nat (2 ^ s)) = Some (Z.of_nat s).
Proof.
  intros Hs. rewrite checked_log2_spec. 2:{ change (Z.of_nat 64) with 64%Z. rewrite pow2_Z. split; [apply Z.pow_nonneg; lia|apply Z.pow_lt_mono_r; lia]. }
  rewrite pow2_Z. rewrite (proj2 (is_power_of_two_spec _)) by (exists (Z.of_nat s); split; [lia|reflexivity]).
  rewrite Z.log2_pow2 by lia. reflexivity.
Qed.
Lemma pow2_small k : k < 62 -> (4 * Z.of_nat (2 ^ k) <= 2 ^ 63)%Z.
Proof. intros H. rewrite pow2_Z. change 4%Z with (2 ^ 2)%Z. rewrite <- Z.pow_add_r by lia. apply Z.pow_le_mono_r; lia. Qed.

Lemma swap_bitrev_full {A} sched t k (f : nat -> A) : fair sched -> k <= 64 ->
  swap_bitrev sched t (tab f (2 ^ k)) (2 ^ k) (Z.of_nat k) = Some (tab (fun i => f (brev k i)) (2 ^ k)).
Proof.
  intros HF Hk. unfold swap_bitrev. destruct k as [|k].
  - cbn [Nat.pow Nat.leb seq map brev]. reflexivity.
  - pose proof (pow2_1 k). replace (2 ^ S k <=? 1) with false by (symmetry; apply Nat.leb_gt; cbn [Nat.pow]; lia).
    apply swap_run; auto; [lia|]. intros. lia.
Qed.
Lemma swap_elements {A} sched t k (f : nat -> A) : fair sched -> k < 64 ->
  swap_bitrev_elements sched t (tab f (2 ^ k)) = Some (tab (fun i => f (brev k i)) (2 ^ k)).
Proof.
  intros HF Hk. unfold swap_bitrev_elements. rewrite tab_length, checked_log2_pow2 by auto. apply swap_bitrev_full; auto; lia.
Qed.
Lemma resize_tab {A} (z : A) f m n : m <= n -> (forall i, m <= i -> f i = z) -> vec_resize z (tab f m) n = tab f n.
Proof.
  intros Hm Hz. unfold vec_resize. rewrite tab_length, firstn_all2 by (rewrite tab_length; auto).
  replace n with (m + (n - m)) at 2 by lia. rewrite seq_app, map_app. f_equal. cbn [plus].
  rewrite <- (map_add_seq m (n - m)), map_map. rewrite (map_ext _ (fun _ => z)) by (intros; apply Hz; lia).
  generalize (n - m). intros q. generalize 0. induction q; intros c; cbn [repeat seq map]; [reflexivity|]. f_equal. auto.
Qed.
Lemma resize_same {A} (z : A) l : vec_resize z l (length l) = l.
Proof. unfold vec_resize. rewrite firstn_all, Nat.sub_diag. apply app_nil_r. Qed.
Lemma all_some_tab {A} (f : nat -> option A) (g : nat -> A) l : (forall i, In i l -> f i = Some (g i)) -> all_some (map f l) = Some (map g l).
Proof.
  intros H. apply all_some_map. induction l as [|x l IH]; cbn [map]; constructor.
  - apply H. left. auto.
  - apply IH. intros. apply H. right. auto.
Qed.

Section Dom.
  Variable K : fld.
  Add Field Kf : (fld_theory K).
  Open Scope fld_scope.
  Implicit Types (w h g : K) (a f : nat -> K) (d : domain K) (it : item K).

  (** What the members of a domain hold. *)
  Record dom_ok (k : nat) g h d : Prop := {
    do_size : d_size d = (2 ^ k)%nat; do_log : d_log d = k;
    do_elem : d_size_elem d = fnat (2 ^ k); do_elem_nz : fnat (K := K) (2 ^ k) <> 0; do_sinv : d_size_inv d = finv (fnat (2 ^ k));
    do_gen : d_gen d = g; do_ginv : d_gen_inv d = finv g; do_unity : unity K k g;
    do_off : d_off d = h; do_off_nz : h <> 0; do_oinv : d_off_inv d = finv h; do_opow : d_off_pow d = h ^ (2 ^ k) }.
  Record item_ok (k : nat) g it : Prop := {
    io_roots : tables_ok K k g (it_roots it); io_inv : inv_tables_ok K k (finv g) (it_inv it) }.

  Lemma list_coeff (l : list K) : l = tab (coeff l) (length l).
  Proof. exact (list_tab 0 l). Qed.

  Lemma fill_first_seq f c n : fill_first (map f (seq c n)) = map (fun _ => f c) (seq c n).
  Proof.
    destruct n; [reflexivity|]. cbn [seq map fill_first length]. rewrite map_length, seq_length. cbn [repeat]. f_equal.
    generalize (S c). induction n; intros c'; cbn [repeat seq map]; [reflexivity|]. f_equal. auto.
  Qed.
  Lemma do_fft_spec threads sched d it k g h (l : list K) : (0 < threads < 2 ^ 62)%Z -> (k < 62)%nat -> fair sched ->
    dom_ok k g h d -> item_ok k g it -> (0 < length l <= 2 ^ k)%nat ->
    do_fft threads sched d it l = Some (values_on l h g (2 ^ k)).
  Proof.
    intros Ht Hk HF HD HI Hl. set (m := length l) in *. pose proof (pow2_small k Hk) as Hb.
    set (a := fun i => coeff l i * h ^ i).
    assert (Ha : forall i, (m <= i)%nat -> a i = 0). { intros i Hi. unfold a. rewrite coeff_over by auto. ring. }
    unfold do_fft. rewrite (do_off _ _ _ _ HD).
    assert (E1 : (if feqb h 1 then Some l else distribute_powers threads l h) = Some (tab a m)).
    { destruct (feqb h 1) eqn:Eh.
      - apply feqb_eq in Eh. f_equal. rewrite (list_coeff l) at 1. fold m. apply tab_ext. intros i _. unfold a. rewrite Eh, fpow_one. ring.
      - unfold distribute_powers. rewrite (list_coeff l) at 1. fold m. rewrite distribute_spec by lia. f_equal.
        apply tab_ext. intros i _. unfold a. ring. }
    rewrite E1. clear E1. cbv zeta. rewrite tab_length.
    destruct (safe_log2_nat m ltac:(lia) ltac:(lia)) as [D1 D2].
    set (ld := Z.to_nat (safe_log2_ceiling 64 (Z.of_nat m))) in *. specialize (D2 k ltac:(lia)).
    rewrite (do_log _ _ _ _ HD), (do_size _ _ _ _ HD).
    replace (Nat.ltb k ld) with false by (symmetry; apply Nat.ltb_ge; lia).
    rewrite resize_tab by (auto; lia).
    assert (E2 : swap_bitrev sched 0 (tab a (2 ^ k)) m (Z.of_nat k) = Some (tab (fun i => a (brev k i)) (2 ^ k))).
    { unfold swap_bitrev. destruct (Nat.leb_spec m 1) as [H1|H1].
      - f_equal. apply tab_ext. intros i Hi. destruct (Nat.eq_dec i 0) as [->|Hi0]; [rewrite brev_0; reflexivity|].
        rewrite !Ha; [reflexivity| |lia]. destruct (Nat.eq_dec (brev k i) 0) as [E|]; [|lia].
        exfalso. apply Hi0. rewrite <- (brev_invol k i Hi), E. apply brev_0.
      - apply swap_run; auto; [|lia|].
        + destruct k; [cbn in Hl; lia|lia].
        + intros i _ H2 H3. rewrite !Ha by auto. reflexivity. }
    rewrite E2. clear E2. destruct HI as [HR _].
    assert (Hfin : tab (tpos K a g k k) (2 ^ k) = values_on l h g (2 ^ k)).
    { apply tab_ext. intros p Hp. rewrite tpos_k by auto. rewrite (eval_coeffs K l _ (2 ^ k)) by (fold m; lia).
      apply fsum_map_ext. intros i _. unfold a. rewrite fpow_mul_base, fpow_mul. ring. }
    destruct (Nat.leb_spec 4 (2 ^ (k - ld))) as [H4|H4].
    - set (s := (k - ld)%nat) in *.
      assert (Hs2 : (2 ^ s <= 2 ^ k)%nat) by (apply Nat.pow_le_mono_r; unfold s; lia). pose proof (pow2_1 s).
      rewrite (by_chunk_tab _ (tpos K a g k s)).
      + unfold out_in_helper. rewrite safe_log2_pow2 by (unfold s; lia).
        rewrite out_in_spec; auto; [rewrite Hfin; reflexivity|apply HD|unfold s; lia|unfold s; lia].
      + lia.
      + lia.
      + intros i q. destruct q; [reflexivity|]. cbn [fill_first]. apply repeat_length.
      + intros i len Hi Hlen Hlc Hn Hfull.
        assert (Hic : Z.to_nat (i * Z.of_nat (2 ^ s)) = (Z.to_nat i * 2 ^ s)%nat).
        { rewrite Z2Nat.inj_mul by lia. rewrite Nat2Z.id. reflexivity. }
        rewrite Hic in *. clear Hic. set (b := Z.to_nat i) in *.
        assert (El : len = (2 ^ s)%nat).
        { destruct Hfull as [E|E]; [lia|]. assert (2 ^ k = 2 ^ ld * 2 ^ s)%nat by (rewrite <- Nat.pow_add_r; f_equal; unfold s; lia).
          assert (2 ^ ld - b = 1)%nat by nia. nia. }
        subst len. rewrite fill_first_seq. apply map_ext_in. intros j Hj. apply in_seq in Hj.
        pose proof (tpos_copied K a g k ld j ltac:(lia) ltac:(lia) ltac:(intros; apply Ha; lia)) as Etc. fold s in Etc. rewrite Etc.
        replace j with (b * 2 ^ s + (j - b * 2 ^ s))%nat by lia.
        destruct (divmod_at (2 ^ s) b (j - b * 2 ^ s) ltac:(lia)) as [-> _]. reflexivity.
    - unfold out_in_helper. pose proof (safe_log2_pow2 0 ltac:(lia)) as El0. change (2 ^ 0)%nat with 1%nat in El0. rewrite El0.
      rewrite (tab_ext _ (tpos K a g k 0)) by (intros; symmetry; apply tpos_0).
      pose proof (out_in_spec K sched (it_roots it) g k a HF (do_unity _ _ _ _ HD) HR 64 0 ltac:(lia) ltac:(lia)) as X.
      change (2 ^ 0)%nat with 1%nat in X. rewrite X, Hfin. reflexivity.
  Qed.

  Lemma do_fft_too_long threads sched d it k g h (l : list K) : (0 < threads < 2 ^ 62)%Z -> (Z.of_nat (length l) < 2 ^ 62)%Z ->
    dom_ok k g h d -> (2 ^ k < length l)%nat -> do_fft threads sched d it l = None.
  Proof.
    intros Ht Hk HD Hl. unfold do_fft. set (m := length l) in *.
    assert (E1 : exists l', (if feqb (d_off d) 1 then Some l else distribute_powers threads l (d_off d)) = Some l' /\ length l' = m).
    { destruct (feqb (d_off d) 1); [exists l; auto|]. unfold distribute_powers.
      pose proof (distribute_spec K threads (d_off d) 1 (coeff l) m ltac:(lia) ltac:(lia)) as X. unfold m in X at 1.
      rewrite <- list_coeff in X. eexists. split; [exact X|]. apply tab_length. }
    destruct E1 as (l' & E1 & E2). rewrite E1. cbv zeta. rewrite E2.
    destruct (safe_log2_nat m ltac:(lia) ltac:(lia)) as [D1 D2]. rewrite (do_log _ _ _ _ HD).
    replace (Nat.ltb k _) with true; [reflexivity|]. symmetry. apply Nat.ltb_lt.
    set (ld := Z.to_nat _) in *. apply (Nat.pow_lt_mono_r_iff 2); lia.
  Qed.

  (** ** The inverse transform *)
  Lemma do_ifft_spec threads sched d it k g h (e : list K) : (0 < threads < 2 ^ 62)%Z -> (k < 62)%nat -> fair sched ->
    dom_ok k g h d -> item_ok k g it -> length e = (2 ^ k)%nat ->
    do_ifft threads sched d it e =
    Some (remove_high (tab (fun i => finv (fnat (2 ^ k)) * (finv h) ^ i * fsum (map (fun t => coeff e t * (finv g) ^ (i * t)) (seq 0 (2 ^ k)))) (2 ^ k))).
  Proof.
    intros Ht Hk HF HD HI He. unfold do_ifft. rewrite (do_size _ _ _ _ HD). rewrite <- He at 1. rewrite resize_same.
    unfold in_out_helper. rewrite (list_coeff e) at 1 2. rewrite He. rewrite tab_length.
    rewrite (tab_ext (coeff e) (fpos K (coeff e) (finv g) k 0)) by (intros; symmetry; apply fpos_0; auto).
    destruct HI as [_ HR]. pose proof (pow2_small k Hk) as Hb.
    replace (2 ^ k)%nat with (2 ^ (k - 0))%nat at 1 by (f_equal; lia).
    rewrite in_out_spec; auto; [|apply unity_inv; apply HD|lia|lia].
    rewrite tab_length, (do_log _ _ _ _ HD). rewrite swap_bitrev_full by (auto; lia).
    rewrite (do_off _ _ _ _ HD), (do_sinv _ _ _ _ HD), (do_oinv _ _ _ _ HD).
    rewrite (tab_ext _ (fun i => fsum (map (fun t => coeff e t * (finv g) ^ (i * t)) (seq 0 (2 ^ k))))).
    2:{ intros i Hi. rewrite fpos_k, brev_invol by auto. reflexivity. }
    destruct (feqb h 1) eqn:Eh.
    - apply feqb_eq in Eh. do 2 f_equal. rewrite map_map. apply tab_ext. intros i _. rewrite Eh.
      replace (finv (1 : K)) with (1 : K) by (field; apply f1_neq_0). rewrite fpow_one. ring.
    - rewrite distribute_spec by lia. do 2 f_equal. apply tab_ext. intros i _. ring.
  Qed.

  (** ** Orthogonality *)
  Lemma geometric_zero (x : K) n : x <> 1 -> x ^ n = 1 -> fsum (map (fun i => x ^ i) (seq 0 n)) = 0.
  Proof.
    intros Hx Hn. pose proof (geometric K x n) as G. rewrite Hn in G.
    assert (E : (x - 1) * fsum (map (fun i => x ^ i) (seq 0 n)) = 0) by (rewrite G; ring).
    destruct (fmul_integral K _ _ E) as [H|H]; [|exact H]. exfalso. apply Hx. apply (proj1 (fsub_eq0 K x 1)). exact H.
  Qed.
  Lemma fsum_ones n : fsum (map (fun _ => (1 : K)) (seq 0 n)) = fnat n.
  Proof.
    generalize 0%nat. induction n; intros c; cbn [seq map fsum fnat]; [reflexivity|]. rewrite IHn. reflexivity.
  Qed.
  Lemma fsum_single (F : nat -> K) n i : (i < n)%nat -> (forall j, (j < n)%nat -> j <> i -> F j = 0) -> fsum (map F (seq 0 n)) = F i.
  Proof.
    intros Hi H. replace n with (i + S (n - S i))%nat by lia. rewrite seq_app, map_app, fsum_app. cbn [seq map fsum plus].
    rewrite !fsum_map_zero; [ring| |]; intros j Hj; apply in_seq in Hj; apply H; lia.
  Qed.
  (** sum over j of g^(j (a - b)) *)
  Lemma ortho g n i j : (0 < n)%nat -> primitive_root g n -> (i < n)%nat -> (j < n)%nat ->
    fsum (map (fun t => g ^ (t * i) * (finv g) ^ (j * t)) (seq 0 n)) = if Nat.eqb i j then fnat n else 0.
  Proof.
    intros Hn [Hg1 Hg2] Hi Hj.
    assert (Hg0 : g <> 0). { intros ->. rewrite fpow_0 in Hg1 by auto. apply (f1_neq_0 K). auto. }
    set (x := g ^ i * (finv g) ^ j).
    rewrite (fsum_map_ext K _ (fun t => x ^ t)).
    2:{ intros t _. unfold x. rewrite fpow_mul_base, <- !fpow_mul. rewrite (Nat.mul_comm t i). reflexivity. }
    assert (Hinv : forall m, g ^ m * (finv g) ^ m = 1).
    { intros m. rewrite <- fpow_mul_base, finv_r by auto. apply fpow_one. }
    assert (Hxn : x ^ n = 1).
    { unfold x. rewrite fpow_mul_base, <- !fpow_mul, (Nat.mul_comm i n), (Nat.mul_comm j n), !fpow_mul.
      rewrite (fpow_finv K g n Hg0), Hg1, fpow_one. replace (finv (1 : K)) with (1 : K) by (field; apply f1_neq_0). rewrite fpow_one. ring. }
    destruct (Nat.eqb_spec i j) as [->|E].
    - rewrite (fsum_map_ext K _ (fun _ => 1)); [apply fsum_ones|]. intros t _. unfold x. rewrite Hinv. apply fpow_one.
    - apply geometric_zero; [|exact Hxn]. intros Hx.
      destruct (Nat.lt_ge_cases i j) as [Hl|Hl].
      + apply (Hg2 (j - i)%nat ltac:(lia)).
        assert (E1 : g ^ j = g ^ j * x) by (rewrite Hx; ring). unfold x in E1.
        replace (g ^ j * (g ^ i * finv g ^ j)) with (g ^ i * (g ^ j * finv g ^ j)) in E1 by ring. rewrite Hinv in E1.
        replace j with (i + (j - i))%nat in E1 at 1 by lia. rewrite fpow_add in E1.
        apply (fmul_cancel_l K (g ^ i)); [apply fpow_neq0; auto|]. exact E1.
      + apply (Hg2 (i - j)%nat ltac:(lia)).
        assert (E1 : g ^ j = g ^ j * x) by (rewrite Hx; ring). unfold x in E1.
        replace (g ^ j * (g ^ i * finv g ^ j)) with (g ^ i * (g ^ j * finv g ^ j)) in E1 by ring. rewrite Hinv in E1.
        replace i with (j + (i - j))%nat in E1 by lia. rewrite fpow_add in E1.
        apply (fmul_cancel_l K (g ^ j)); [apply fpow_neq0; auto|]. rewrite E1 at 2. ring.
  Qed.

  Lemma primitive_unity g k : primitive_root g (2 ^ k) -> unity K k g.
  Proof.
    intros [H1 H2]. split; [exact H1|]. intros j ->. 
    assert (E : (g ^ (2 ^ j) - 1) * (g ^ (2 ^ j) + 1) = 0).
    { replace (2 ^ S j)%nat with (2 ^ j + 2 ^ j)%nat in H1 by (cbn [Nat.pow]; lia). rewrite fpow_add in H1.
      replace ((g ^ (2 ^ j) - 1) * (g ^ (2 ^ j) + 1)) with (g ^ (2 ^ j) * g ^ (2 ^ j) - 1) by ring. rewrite H1. ring. }
    destruct (fmul_integral K _ _ E) as [H|H].
    - exfalso. apply (H2 (2 ^ j)%nat); [pose proof (pow2_1 j); cbn [Nat.pow]; lia|]. apply (proj1 (fsub_eq0 K _ 1)). exact H.
    - replace (g ^ (2 ^ j)) with (g ^ (2 ^ j) + 1 - 1) by ring. rewrite H. ring.
  Qed.
  Lemma unity_primitive g k : fnat (K := K) 2 <> 0 -> unity K k g -> primitive_root g (2 ^ k).
  Proof.
    intros H2 [H Hm]. split; [exact H|]. intros i Hi E.
    (* the odd part argument: write i = 2^a * odd *)
    assert (Hodd : forall b i : nat, (0 < i)%nat -> (i < 2 ^ b)%nat -> exists e q, i = (2 ^ e * (2 * q + 1))%nat /\ (e < b)%nat).
    { clear. induction b as [|b IH]; intros i H1 H2; [cbn in H2; lia|].
      destruct (Nat.Even_or_Odd i) as [[q Hq]|[q Hq]].
      - destruct (IH q) as (e & r & -> & He); [lia|cbn [Nat.pow] in H2; lia|]. exists (S e), r. cbn [Nat.pow]. lia.
      - exists 0%nat, q. cbn [Nat.pow]. lia. }
    destruct (Hodd k i ltac:(lia) ltac:(lia)) as (e & q & -> & He).
    (* raise to 2^(k-1-e) *)
    assert (E2 : g ^ (2 ^ (k - 1) * (2 * q + 1)) = 1).
    { replace (2 ^ (k - 1) * (2 * q + 1))%nat with (2 ^ e * (2 * q + 1) * 2 ^ (k - 1 - e))%nat.
      - rewrite fpow_mul, E. apply fpow_one.
      - replace (2 ^ (k - 1))%nat with (2 ^ e * 2 ^ (k - 1 - e))%nat by (rewrite <- Nat.pow_add_r; f_equal; lia). ring. }
    rewrite fpow_mul, (Hm (k - 1)%nat ltac:(lia)), fpow_add, m1_even in E2. cbn [fpow] in E2.
    apply H2. cbn [fnat]. 
    assert (E3 : - (1) = (1 : K)) by (rewrite <- E2 at 2; ring).
    replace (1 + (1 + 0)) with (1 - - (1) : K) by ring. rewrite E3. ring.
  Qed.
  Lemma fnat_mul m n : fnat (K := K) (m * n) = fnat m * fnat n.
  Proof.
    induction m; cbn [Nat.mul fnat]; [ring|].
    assert (HA : forall x y, fnat (K := K) (x + y) = fnat x + fnat y) by (induction x; intros; cbn [plus fnat]; [ring|rewrite IHx; ring]).
    rewrite HA, IHm. ring.
  Qed.
  Lemma fnat_pow2 k : fnat (K := K) 2 <> 0 -> fnat (K := K) (2 ^ k) <> 0.
  Proof.
    intros H. induction k; cbn [Nat.pow]; [cbn [fnat]; intros E; apply (f1_neq_0 K); rewrite <- E; ring|].
    change (2 ^ k + (2 ^ k + 0))%nat with (2 * 2 ^ k)%nat. rewrite fnat_mul. apply fmul_neq0; auto.
  Qed.
  (** A field with a primitive 2^k-th root of unity, k > 0, is not of characteristic two. *)
  Lemma primitive_char g k : (0 < k)%nat -> primitive_root g (2 ^ k) -> fnat (K := K) 2 <> 0.
  Proof.
    intros Hk HP E. pose proof (primitive_unity g k HP) as [_ Hm]. specialize (Hm (k - 1)%nat ltac:(lia)).
    destruct HP as [_ H]. apply (H (2 ^ (k - 1))%nat).
    - pose proof (pow2_1 (k - 1)). split; [lia|]. apply Nat.pow_lt_mono_r; lia.
    - rewrite Hm. cbn [fnat] in E. replace (- (1)) with (1 - (1 + (1 + 0)) : K) by ring. rewrite E. ring.
  Qed.
End Dom.
