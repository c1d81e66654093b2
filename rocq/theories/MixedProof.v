From Coq Require Import ZArith List Arith Lia Permutation Bool Znumtheory Zpow_facts Ring Field Field_theory.
From Verif Require Import Field BitsModel BitsProof ParallelizeModel SemigroupModel PolyModel PolySpec PolyProof PolyProof3 PolyProof4 FFTModel FFTSpec FFTProof FFTProof2 FFTProof3 FFTProof4 FFTProof5 MixedModel MixedSpec.
Import ListNotations.
Open Scope nat_scope.

(** ** ComputeAdicity, ComputeTrace *)
Lemma adicity_loop_spec : forall fuel k n a, (2 <= k)%Z -> (0 < n)%Z -> (Z.log2 n < Z.of_nat fuel)%Z ->
  exists s t, (0 <= s)%Z /\ adicity_loop fuel k n a = (a + s)%Z /\ n = (k ^ s * t)%Z /\ (t mod k <> 0)%Z /\
  trace_loop fuel k n = (if (t =? 1)%Z then 0 else t)%Z.
Proof.
  induction fuel; intros k n a Hk Hn Hf; [pose proof (Z.log2_nonneg n); lia|]. cbn [adicity_loop trace_loop].
  destruct (Z.ltb_spec 1 n) as [H1|H1].
  - destruct (Z.eqb_spec (n mod k) 0) as [E|E].
    + assert (En : n = (k * (n / k))%Z) by (pose proof (Z.div_mod n k ltac:(lia)); lia).
      assert (Hp : (0 < n / k)%Z) by nia.
      assert (Hl : (Z.log2 (n / k) < Z.log2 n)%Z).
      { assert (Z.log2 (2 * (n / k)) <= Z.log2 n)%Z by (apply Z.log2_le_mono; nia). rewrite Z.log2_double in H by lia. lia. }
      destruct (IHfuel k (n / k)%Z (a + 1)%Z Hk Hp ltac:(lia)) as (s & t & Hs & Ea & Et & Hm & Htr).
      exists (s + 1)%Z, t. split; [lia|]. split; [rewrite Ea; lia|]. split; [rewrite En, Et, Z.pow_add_r by lia; lia|]. auto.
    + exists 0%Z, n. split; [lia|]. split; [lia|]. split; [rewrite Z.pow_0_r; lia|]. split; [exact E|].
      destruct (Z.eqb_spec n 1); [lia|reflexivity].
  - assert (n = 1%Z) by lia. subst n. exists 0%Z, 1%Z. split; [lia|]. split; [lia|]. split; [rewrite Z.pow_0_r; lia|].
    split; [rewrite Z.mod_1_l by lia; lia|]. reflexivity.
Qed.
Lemma adicity_spec k n : (2 <= k)%Z -> (0 < n)%Z ->
  exists t, (0 <= compute_adicity k n)%Z /\ n = (k ^ compute_adicity k n * t)%Z /\ (t mod k <> 0)%Z /\ compute_trace k n = (if (t =? 1)%Z then 0 else t)%Z.
Proof.
  intros Hk Hn. unfold compute_adicity, compute_trace. pose proof (Z.log2_nonneg n).
  destruct (adicity_loop_spec (S (Z.to_nat (Z.log2 n))) k n 0 Hk Hn ltac:(lia)) as (s & t & Hs & Ea & Et & Hm & Htr).
  exists t. rewrite Ea, Z.add_0_l. auto.
Qed.
Lemma adicity_unique k s t s' t' : (2 <= k)%Z -> (0 <= s)%Z -> (0 <= s')%Z -> (k ^ s * t = k ^ s' * t')%Z -> (t mod k <> 0)%Z -> (t' mod k <> 0)%Z -> s = s'.
Proof.
  assert (X : forall k s t s' t', (2 <= k)%Z -> (0 <= s)%Z -> (0 <= s')%Z -> (k ^ s * t = k ^ s' * t')%Z -> (t mod k <> 0)%Z -> (s < s')%Z -> False).
  { clear. intros k s t s' t' Hk Hs Hs' E Ht L. apply Ht. replace s' with (s + (1 + (s' - s - 1)))%Z in E by lia.
    rewrite !Z.pow_add_r, Z.pow_1_r in E by lia. assert (0 < k ^ s)%Z by (apply Z.pow_pos_nonneg; lia).
    assert (E2 : (t = (k ^ (s' - s - 1) * t') * k)%Z) by (apply (Z.mul_reg_l _ _ (k ^ s)); lia). rewrite E2. apply Z.mod_mul. lia. }
  intros Hk Hs Hs' E Ht Ht'. destruct (Z.lt_trichotomy s s') as [L|[L|L]]; [|exact L|]; exfalso.
  - exact (X k s t s' t' Hk Hs Hs' E Ht L).
  - exact (X k s' t' s t Hk Hs' Hs (eq_sym E) Ht' L).
Qed.
Lemma adicity_full k n : (2 <= k)%Z -> (0 < n)%Z ->
  exists t, (0 <= compute_adicity k n)%Z /\ n = (k ^ compute_adicity k n * t)%Z /\ (t mod k <> 0)%Z /\
  forall s t', (0 <= s)%Z -> n = (k ^ s * t')%Z -> (t' mod k <> 0)%Z -> s = compute_adicity k n.
Proof.
  intros Hk Hn. destruct (adicity_spec k n Hk Hn) as (t & H0 & E & Hm & _). exists t. split; [auto|]. split; [auto|]. split; [auto|].
  intros s t' Hs E' Hm'. apply (adicity_unique k s t' _ t); auto. rewrite <- E'. exact E.
Qed.
Lemma trace_full k n : (2 <= k)%Z -> (0 < n)%Z ->
  exists a t, (0 <= a)%Z /\ n = (k ^ a * t)%Z /\ (t mod k <> 0)%Z /\ (t <> 1%Z -> compute_trace k n = t) /\ (t = 1%Z -> compute_trace k n = 0%Z).
Proof.
  intros Hk Hn. destruct (adicity_spec k n Hk Hn) as (t & H0 & E & Hm & Et). exists (compute_adicity k n), t. split; [auto|]. split; [auto|]. split; [auto|].
  rewrite Et. destruct (Z.eqb_spec t 1); split; intros; auto; contradiction.
Qed.
Lemma adicity_two j : Z.to_nat (compute_adicity 2 (Z.of_nat (2 ^ j))) = j.
Proof.
  pose proof (pow2_1 j). destruct (adicity_spec 2 (Z.of_nat (2 ^ j)) ltac:(lia) ltac:(lia)) as (t & H0 & E & Hm & _).
  rewrite pow2_Z in E at 1. assert (compute_adicity 2 (Z.of_nat (2 ^ j)) = Z.of_nat j); [|lia].
  apply (adicity_unique 2 _ t _ 1); [lia|exact H0|lia|rewrite Z.mul_1_r; auto|exact Hm|discriminate].
Qed.
Lemma adicity_odd q j : Nat.Odd q -> 1 < q -> Z.to_nat (compute_adicity (Z.of_nat q) (Z.of_nat (2 ^ j))) = 0.
Proof.
  intros Ho Hq. pose proof (pow2_1 j). destruct (adicity_spec (Z.of_nat q) (Z.of_nat (2 ^ j)) ltac:(lia) ltac:(lia)) as (t & H0 & E & Hm & _).
  set (a := compute_adicity _ _) in *. destruct (Z.eq_dec a 0) as [->|Ha]; [reflexivity|]. exfalso.
  assert (HD : (Z.of_nat q | 2 ^ Z.of_nat j)%Z).
  { rewrite <- pow2_Z, E. replace a with (1 + (a - 1))%Z by lia. rewrite Z.pow_add_r, Z.pow_1_r by lia. exists (Z.of_nat q ^ (a - 1) * t)%Z. ring. }
  assert (RP : rel_prime (Z.of_nat q) (2 ^ Z.of_nat j)).
  { apply rel_prime_Zpower_r; [lia|]. apply Zgcd_1_rel_prime. destruct Ho as [m ->]. rewrite Nat2Z.inj_add, Nat2Z.inj_mul. 
    rewrite Z.gcd_comm. replace (Z.of_nat 2 * Z.of_nat m + Z.of_nat 1)%Z with (1 + Z.of_nat m * 2)%Z by lia. rewrite Z.gcd_add_mult_diag_r. reflexivity. }
  apply (rel_prime_sym) in RP. pose proof (Gauss (Z.of_nat q) (2 ^ Z.of_nat j) 1) as G. rewrite Z.mul_1_r in G.
  specialize (G HD (rel_prime_sym _ _ RP)). apply Z.divide_1_r_nonneg in G; lia.
Qed.

(** ** The shadowed accumulator *)
Lemma shadow_ends : forall fuel base ad i, (2 <= base)%Z -> (0 <= i)%Z -> (0 < Z.of_nat fuel)%Z -> (ad - i < Z.of_nat fuel - 1)%Z -> shadow_loop fuel base ad i = Some tt.
Proof.
  induction fuel; intros base ad i Hb Hi H0 Hf; [lia|]. cbn [shadow_loop]. destruct (Z.leb_spec i ad) as [L|L]; [|reflexivity].
  apply IHfuel; nia.
Qed.
Lemma max_degree_wrong base small two : (2 <= base)%Z -> (0 <= small)%Z -> max_degree_mixed base small two = Some (2 ^ two - 1)%Z.
Proof. intros Hb Hs. unfold max_degree_mixed. rewrite shadow_ends by lia. f_equal. lia. Qed.

Section Mixed.
  Variable K : fld.
  Add Field Kfmx : (fld_theory K).
  Open Scope fld_scope.
  Implicit Types (w omega : K) (a f : nat -> K).

  Definition dft a w n p : K := fsum (map (fun m => a m * w ^ (p * m)) (seq 0 n)).

  (** ** The radix-2 passes *)
  Lemma two_inner m k w_m : forall len j0 (l : list K),
    ofold (two_step m k w_m) (seq j0 len) (l, w_m ^ j0) =
    option_map (fun l' => (l', w_m ^ (j0 + len))) (ofold (bfly butterfly_out_in) (map (fun j => ((k + j)%nat, (k + j + m)%nat, Some (w_m ^ j))) (seq j0 len)) l).
  Proof.
    induction len; intros j0 l; cbn [seq ofold map option_map]; [rewrite Nat.add_0_r; reflexivity|].
    unfold two_step at 1. cbn [fst snd]. replace (k + m + j0)%nat with (k + j0 + m)%nat by lia.
    destruct (bfly butterfly_out_in l ((k + j0)%nat, (k + j0 + m)%nat, Some (w_m ^ j0))) as [l'|]; [|reflexivity].
    replace (w_m ^ j0 * w_m) with (w_m ^ (S j0)) by (cbn [fpow]; ring). rewrite IHlen. replace (S j0 + len)%nat with (j0 + S len)%nat by lia. reflexivity.
  Qed.
  Lemma two_pass_eq w (l : list K) m : two_pass w m l =
    ofold (bfly butterfly_out_in)
      (flat_map (fun b => map (fun j => ((b * (2 * m) + j)%nat, (b * (2 * m) + j + m)%nat, Some ((do_pow 1 fmul (fun y => y * y) [Z.of_nat (Nat.div (length l) (2 * m))] w) ^ j))) (seq 0 m))
                (seq 0 (Nat.div (length l + 2 * m - 1) (2 * m)))) l.
  Proof.
    unfold two_pass. set (w_m := do_pow _ _ _ _ _). rewrite ofold_flat. apply ofold_ext. intros l' b _.
    pose proof (two_inner m (b * (2 * m)) w_m m 0 l') as X. cbn [fpow] in X. rewrite X. clear X. destruct (ofold _ _ l'); reflexivity.
  Qed.
  Lemma two_pass_spec a w k s : unity K k w -> (s < k)%nat -> (k < 64)%nat ->
    two_pass w (2 ^ s) (tab (tpos K a w k s) (2 ^ k)) = Some (tab (tpos K a w k (S s)) (2 ^ k)).
  Proof.
    intros Hw Hs Hk. rewrite two_pass_eq, tab_length.
    pose proof (pow2_split k s Hs) as E. pose proof (pow2_1 s) as H1.
    replace (Nat.div (2 ^ k + 2 * 2 ^ s - 1) (2 * 2 ^ s)) with (2 ^ (k - 1 - s))%nat.
    2:{ rewrite E at 1. symmetry. apply layer_count. lia. }
    replace (Nat.div (2 ^ k) (2 * 2 ^ s)) with (2 ^ (k - 1 - s))%nat.
    2:{ rewrite E at 1. symmetry. apply Nat.div_mul. lia. }
    rewrite E at 1 2.
    pose proof (layer_run (R := K) butterfly_out_in (fun A _ l => l) 0 (2 ^ (k - 1 - s)) (2 ^ s)
      (fun _ j => Some (do_pow 1 fmul (fun y => y * y) [Z.of_nat (2 ^ (k - 1 - s))] w ^ j)) (tpos K a w k s) (tpos K a w k (S s))) as X.
    apply X; clear X.
    - intros A t l. apply Permutation_refl.
    - intros b j Hb Hj. eexists. split; [reflexivity|]. rewrite do_pow_fpow, Nat2Z.id.
      2:{ split; [lia|]. rewrite pow2_Z. apply Z.pow_lt_mono_r; lia. }
      rewrite <- fpow_mul. apply tpos_step; auto.
  Qed.
  Lemma two_passes a w k : unity K k w -> (k < 64)%nat -> forall c s, (s + c = k)%nat ->
    ofold (fun l i => two_pass w (1 * 2 ^ i) l) (seq s c) (tab (tpos K a w k s) (2 ^ k)) = Some (tab (tpos K a w k k) (2 ^ k)).
  Proof.
    intros Hw Hk. induction c; intros s Hs; cbn [seq ofold]; [replace s with k by lia; reflexivity|].
    rewrite Nat.mul_1_l. rewrite two_pass_spec by (auto; lia). apply IHc. lia.
  Qed.
  Lemma serial_spec sched q a w k : fair sched -> Nat.Odd q -> (1 < q)%nat -> unity K k w -> (k < 64)%nat ->
    serial_fft sched q w k (tab a (2 ^ k)) = Some (tab (dft a w (2 ^ k)) (2 ^ k)).
  Proof.
    intros HF Ho Hq Hw Hk. unfold serial_fft. rewrite tab_length. rewrite adicity_odd by auto. cbv zeta. cbn [Nat.pow]. rewrite Nat.mul_1_l, Nat.eqb_refl. cbn [negb].
    change (Nat.ltb 0 0) with false. cbv iota.
    pose proof (swap_bitrev_full sched 0 k a HF ltac:(lia)) as X. rewrite ?tab_length in X. rewrite X. clear X.
    rewrite (tab_ext _ (tpos K a w k 0)) by (intros; symmetry; apply tpos_0).
    rewrite two_passes by (auto; lia). f_equal. apply tab_ext. intros p Hp. apply tpos_k. exact Hp.
  Qed.

  (** ** The parallel variant *)
  Lemma coset_inner_spec (l : list K) cs w_s i : forall nt c0 x e, (forall c, (c < c0 + nt)%nat -> (i + c * cs < length l)%nat) ->
    ofold (coset_inner l cs w_s i) (seq c0 nt) (x, e) =
    Some (x + fsum (map (fun c => coeff l (i + c * cs) * (e * w_s ^ (c - c0))) (seq c0 nt)), e * w_s ^ nt).
  Proof.
    induction nt; intros c0 x e H; cbn [seq ofold map fsum].
    - cbn [fpow]. f_equal. f_equal; ring.
    - unfold coset_inner at 1. rewrite coeff_nth_error by (apply H; lia). cbn [fst snd].
      rewrite IHnt by (intros; apply H; lia). f_equal. f_equal.
      + rewrite Nat.sub_diag. cbn [fpow].
        replace (x + (coeff l (i + c0 * cs) * (e * 1) + fsum (map (fun c => coeff l (i + c * cs) * (e * w_s ^ (c - c0))) (seq (S c0) nt))))
           with (x + coeff l (i + c0 * cs) * e + fsum (map (fun c => coeff l (i + c * cs) * (e * w_s ^ (c - c0))) (seq (S c0) nt))) by ring.
        f_equal. apply fsum_map_ext. intros c Hc. apply in_seq in Hc. replace (c - c0)%nat with (S (c - S c0)) by lia. cbn [fpow]. ring.
      + cbn [fpow]. ring.
  Qed.
  Definition folded a w nt cs kk i : K := fsum (map (fun c => a (i + c * cs)%nat * w ^ (kk * (i + c * cs))) (seq 0 nt)).
  Lemma coset_outer_spec a w nt cs kk : w ^ (nt * cs) = 1 -> forall c i0 acc, (i0 + c = cs)%nat ->
    ofold (coset_outer (tab a (nt * cs)) nt cs (w ^ kk) (w ^ (kk * cs))) (seq i0 c) (acc, w ^ (kk * i0)) =
    Some (acc ++ map (folded a w nt cs kk) (seq i0 c), w ^ (kk * (i0 + c))).
  Proof.
    intros Hw. induction c; intros i0 acc Hc; cbn [seq ofold map].
    - rewrite app_nil_r, Nat.add_0_r. reflexivity.
    - unfold coset_outer at 1. cbn [fst snd]. rewrite coset_inner_spec.
      2:{ intros c' Hc'. rewrite tab_length. nia. }
      replace (w ^ (kk * i0) * (w ^ (kk * cs)) ^ nt * w ^ kk) with (w ^ (kk * S i0)).
      2:{ rewrite <- fpow_mul. replace (kk * cs * nt)%nat with (nt * cs * kk)%nat by lia. rewrite (fpow_mul K w (nt * cs)), Hw, fpow_one.
          replace (kk * S i0)%nat with (kk * i0 + kk)%nat by lia. rewrite fpow_add. ring. }
      rewrite IHc by lia. f_equal. f_equal; [|f_equal; lia]. rewrite <- app_assoc. f_equal. cbn [app]. f_equal.
      unfold folded. match goal with |- 0 + ?x = _ => transitivity x; [ring|] end. apply fsum_map_ext.
      intros c0 Hc0. apply in_seq in Hc0. rewrite Nat.sub_0_r. rewrite <- fpow_mul. rewrite <- fpow_add.
      replace (kk * i0 + kk * cs * c0)%nat with (kk * (i0 + c0 * cs))%nat by lia. f_equal.
      assert (i0 + c0 * cs < nt * cs)%nat by nia. unfold coeff. rewrite (nth_error_nth _ _ _ (tab_nth a (nt * cs) _ H)). reflexivity.
  Qed.
  Lemma fsum_blocks (F : nat -> K) n m : fsum (map F (seq 0 (m * n))) = fsum (map (fun i => fsum (map (fun c => F (i + c * n)%nat) (seq 0 m))) (seq 0 n)).
  Proof.
    rewrite (fsum_swap K (fun i c => F (i + c * n)%nat)). induction m; [reflexivity|].
    rewrite seq_S, map_app, fsum_app, <- IHm. replace (S m * n)%nat with (m * n + n)%nat by lia. rewrite seq_app, map_app, fsum_app. f_equal.
    cbn [map fsum plus]. transitivity (fsum (map (fun i => F (i + m * n)%nat) (seq 0 n))); [|ring].
    rewrite <- (map_add_seq (m * n) n), map_map. apply fsum_map_ext. intros i _. f_equal. lia.
  Qed.
  Lemma unity_sub k lt w : (lt <= k)%nat -> unity K k w -> unity K (k - lt) (w ^ (2 ^ lt)).
  Proof.
    intros Hl [H1 H2]. split.
    - rewrite <- fpow_mul, <- Nat.pow_add_r. replace (lt + (k - lt))%nat with k by lia. exact H1.
    - intros j Hj. rewrite <- fpow_mul, <- Nat.pow_add_r. apply H2. lia.
  Qed.
  Lemma parallel_spec sched q a w k lt : fair sched -> Nat.Odd q -> (1 < q)%nat -> unity K k w -> (k < 62)%nat -> (lt <= k)%nat ->
    parallel_fft sched q w k lt (tab a (2 ^ k)) = Some (tab (dft a w (2 ^ k)) (2 ^ k)).
  Proof.
    intros HF Ho Hq Hw Hk Hl. unfold parallel_fft. rewrite tab_length. replace (Nat.ltb k lt) with false by (symmetry; apply Nat.ltb_ge; lia).
    pose proof (pow2_1 lt) as H1. pose proof (pow2_1 (k - lt)) as H2.
    assert (En : (2 ^ k = 2 ^ lt * 2 ^ (k - lt))%nat) by (rewrite <- Nat.pow_add_r; f_equal; lia).
    replace (Nat.modulo (2 ^ k) (2 ^ lt)) with 0%nat by (rewrite En, Nat.mul_comm, Nat.mod_mul by lia; reflexivity). cbn [Nat.eqb negb].
    replace (Nat.div (2 ^ k) (2 ^ lt)) with (2 ^ (k - lt))%nat by (rewrite En, Nat.mul_comm, Nat.div_mul by lia; reflexivity).
    set (nt := (2 ^ lt)%nat) in *. set (cs := (2 ^ (k - lt))%nat) in *. pose proof (pow2_small k Hk) as Hb.
    rewrite (all_some_tab _ (fun kk => tab (dft (folded a w nt cs kk) (w ^ nt) cs) cs)).
    2:{ intros kk Hkk. apply in_seq in Hkk. unfold coset_fft. rewrite En.
        assert (Hkc : (kk * cs < nt * cs)%nat) by nia.
        rewrite !do_pow_fpow, !Nat2Z.id by (split; [lia|]; nia).
        pose proof (coset_outer_spec a w nt cs kk ltac:(rewrite <- En; apply Hw) cs 0 [] ltac:(lia)) as X. rewrite Nat.mul_0_r in X. cbn [fpow] in X. rewrite X. clear X.
        cbn [fst app]. assert (Ea : Z.to_nat (compute_adicity 2 (Z.of_nat cs)) = (k - lt)%nat) by apply adicity_two. rewrite Ea.
        apply (serial_spec sched q (folded a w nt cs kk) (w ^ nt) (k - lt)); auto; [|lia]. apply unity_sub; auto. }
    rewrite (all_some_tab _ (dft a w (2 ^ k))); [reflexivity|]. intros i Hi. apply in_seq in Hi.
    assert (Hm : (Nat.modulo i nt < nt)%nat) by (apply Nat.mod_upper_bound; lia).
    assert (Hd : (Nat.div i nt < cs)%nat) by (apply Nat.div_lt_upper_bound; lia).
    rewrite (tab_nth (fun kk => tab (dft (folded a w nt cs kk) (w ^ nt) cs) cs)) by auto. rewrite tab_nth by auto. f_equal.
    unfold dft, folded. rewrite En, fsum_blocks. apply fsum_map_ext. intros j Hj. apply in_seq in Hj.
    match goal with |- fsum ?x * ?y = _ => transitivity (y * fsum x); [ring|] end. rewrite <- (fsum_map_mul K). apply fsum_map_ext. intros c Hc. apply in_seq in Hc.
    set (r := Nat.modulo i nt) in *. set (d := Nat.div i nt) in *.
    assert (Ei : i = (nt * d + r)%nat) by (apply Nat.div_mod; lia).
    rewrite <- fpow_mul.
    assert (X : w ^ (i * (j + c * cs)) = w ^ (r * (j + c * cs)) * w ^ (nt * (d * j))).
    { rewrite Ei. replace ((nt * d + r) * (j + c * cs))%nat with (r * (j + c * cs) + nt * (d * j) + (nt * cs) * (d * c))%nat by ring.
      rewrite !fpow_add, (fpow_mul K w (nt * cs)). rewrite <- En. rewrite (proj1 Hw), fpow_one. ring. }
    rewrite X. ring.
  Qed.
  Lemma best_spec sched openmp q a w k : fair sched -> Nat.Odd q -> (1 < q)%nat -> unity K k w -> (k < 62)%nat ->
    best_fft sched openmp q w k (tab a (2 ^ k)) = Some (tab (dft a w (2 ^ k)) (2 ^ k)).
  Proof.
    intros HF Ho Hq Hw Hk. unfold best_fft. destruct openmp as [th|]; [|apply serial_spec; auto; lia].
    destruct (Nat.leb_spec k (Z.to_nat (log2_floor 32 th))); [apply serial_spec; auto; lia|]. apply parallel_spec; auto; lia.
  Qed.

  Lemma mixed_fft_spec threads openmp sched q (d : domain K) k (g h : K) (l : list K) : (0 < threads < 2 ^ 62)%Z -> (k < 62)%nat -> fair sched -> Nat.Odd q -> (1 < q)%nat ->
    primitive_root g (2 ^ k) -> domain_on (2 ^ k) k g h d -> (length l <= 2 ^ k)%nat ->
    mixed_do_fft sched threads openmp q d l = Some (values_on l h g (2 ^ k)).
  Proof.
    intros Ht Hk HF Ho Hq HP HD Hl. set (m := length l) in *. pose proof (pow2_small k Hk) as Hb.
    set (a := fun i => coeff l i * h ^ i).
    assert (Ha : forall i, (m <= i)%nat -> a i = 0). { intros i Hi. unfold a. rewrite coeff_over by auto. ring. }
    unfold mixed_do_fft. rewrite (on_off _ _ _ _ _ HD).
    assert (E1 : (if feqb h 1 then Some l else distribute_powers threads l h) = Some (tab a m)).
    { destruct (feqb h 1) eqn:Eh.
      - apply (proj1 (feqb_eq K _ _)) in Eh. f_equal. rewrite (list_coeff K l) at 1. fold m. apply tab_ext. intros i _. unfold a. rewrite Eh, fpow_one. ring.
      - unfold distribute_powers. rewrite (list_coeff K l) at 1. fold m. rewrite distribute_spec by lia. f_equal.
        apply tab_ext. intros i _. unfold a. ring. }
    rewrite E1. clear E1. rewrite (on_size _ _ _ _ _ HD), resize_tab by (auto; lia).
    rewrite (on_gen _ _ _ _ _ HD), (on_log _ _ _ _ _ HD). rewrite best_spec; auto; [|apply primitive_unity; auto].
    f_equal. apply tab_ext. intros p Hp. unfold dft. rewrite (eval_coeffs K l _ (2 ^ k)) by (fold m; lia).
    apply fsum_map_ext. intros i _. unfold a. rewrite fpow_mul_base, fpow_mul. ring.
  Qed.
  Lemma mixed_ifft_spec threads openmp sched q (d : domain K) k (g h : K) (e : list K) : (0 < threads < 2 ^ 62)%Z -> (k < 62)%nat -> fair sched -> Nat.Odd q -> (1 < q)%nat ->
    primitive_root g (2 ^ k) -> h <> 0 -> domain_on (2 ^ k) k g h d -> length e = (2 ^ k)%nat ->
    exists f : list K, mixed_do_ifft sched threads openmp q d e = Some f /\ canonical f /\ (length f <= 2 ^ k)%nat /\ values_on f h g (2 ^ k) = e.
  Proof.
    intros Ht Hk HF Ho Hq HP Hh HD He. pose proof (pow2_small k Hk) as Hb.
    exists (remove_high (tab (inverse_coeff K k g h e) (2 ^ k))). split.
    - unfold mixed_do_ifft. rewrite (on_size _ _ _ _ _ HD). rewrite <- He at 1. rewrite resize_same.
      rewrite (on_gen_inv _ _ _ _ _ HD), (on_log _ _ _ _ _ HD). rewrite (list_coeff K e) at 1. rewrite He.
      rewrite best_spec; auto; [|apply unity_inv, primitive_unity; auto].
      rewrite (on_off _ _ _ _ _ HD), (on_off_inv _ _ _ _ _ HD), (on_size_inv _ _ _ _ _ HD).
      destruct (feqb h 1) eqn:Eh.
      + apply (proj1 (feqb_eq K _ _)) in Eh. do 2 f_equal. rewrite map_map. apply tab_ext. intros i _. unfold inverse_coeff, dft. rewrite Eh.
        replace (finv (1 : K)) with (1 : K) by (field; apply f1_neq_0). rewrite fpow_one. ring.
      + rewrite distribute_spec by lia. do 2 f_equal. apply tab_ext. intros i _. unfold inverse_coeff, dft. ring.
    - split; [apply remove_high_canonical|]. split; [|apply inverse_values; auto].
      eapply Nat.le_trans; [apply remove_high_length|]. rewrite tab_length. lia.
  Qed.
End Mixed.
