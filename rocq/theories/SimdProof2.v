(** Packed 32-bit fields: Montgomery products on AVX-512 and NEON, products of Mersenne31. *)
From Coq Require Import ZArith Znumtheory List Bool Arith Lia.
From Verif Require Import BigIntModel BigIntProof ParallelizeProof SmallFieldModel SmallFieldSpec SmallFieldProof SimdModel SimdSpec SimdProof.
Import ListNotations.
Open Scope Z_scope.

Lemma qdmulh_lane a b i : - 2 ^ 31 < s32 (b i) < 2 ^ 31 -> - 2 ^ 31 <= s32 (a i) < 2 ^ 31 -> vqdmulh a b i = trunc 32 (s32 (a i) * s32 (b i) / 2 ^ 31).
Proof.
  intros Hb Ha. unfold vqdmulh. set (m := s32 (a i) * s32 (b i)). rewrite Z.shiftr_div_pow2 by lia.
  replace (2 ^ 32) with (2 * 2 ^ 31) by reflexivity. rewrite Z.div_mul_cancel_l by lia. f_equal. apply Z.min_r.
  apply Z.lt_succ_r. apply Z.div_lt_upper_bound; [lia|]. unfold m. change (Z.succ (2 ^ 31 - 1)) with (2 ^ 31). nia.
Qed.

Section Mont.
  Variables (p iv : Z).
  Hypothesis Hodd : Z.odd p = true.
  Hypothesis Hp : 2 < p < 2 ^ 31.
  Hypothesis Hiv : (p * iv) mod 2 ^ 32 = 1 /\ 0 <= iv < 2 ^ 32.
  Notation P := (set1 p).
  Notation IV := (set1 iv).
  Notation "a == b" := (eqm p a b) (at level 70).

  (** any q with q p = C (mod 2^32) *)
  Lemma quotient C q D a b x y : represents32 p a x -> represents32 p b y -> C = a * b -> D * 2 ^ 32 = C - q * p -> represents32 p (D mod p) (x * y).
  Proof.
    intros Ha Hb EC ED. split; [apply Z.mod_pos_bound; lia|]. change (D == x * y * 2 ^ 32). apply (eqm_cancel p Hodd Hp).
    apply (ct p _ (a * b)).
    - unfold eqm. rewrite ED, <- (Z.mod_add (C - q * p) q p) by lia. f_equal. lia.
    - replace (x * y * 2 ^ 32 * 2 ^ 32) with (x * 2 ^ 32 * (y * 2 ^ 32)) by ring. apply (cmul p); unfold eqm.
      + rewrite <- (proj2 Ha). apply Z.mod_small, Ha.
      + rewrite <- (proj2 Hb). apply Z.mod_small, Hb.
  Qed.
  Lemma mod_of D : - p < D < p -> D mod p = if D <? 0 then D + p else D.
  Proof.
    intros H. destruct (Z.ltb_spec D 0); [symmetry; apply Z.mod_unique_pos with (q := -1); lia|apply Z.mod_small; lia].
  Qed.
  Lemma qu_congr C : (trunc 32 (trunc 32 C * iv) * p) mod 2 ^ 32 = C mod 2 ^ 32.
  Proof.
    unfold trunc. rewrite !Z.mul_mod_idemp_l, <- Z.mul_assoc, (Z.mul_comm iv p), <- Z.mul_mod_idemp_r, (proj1 Hiv), Z.mul_1_r by lia. apply Z.mod_mod. lia.
  Qed.

  Lemma core_512 A B x y : represents32 p A x -> represents32 p B y ->
    let C := A * B in let q := trunc 32 (trunc 32 C * iv) in
    let h := trunc 32 (Z.shiftr C 32) in let g := trunc 32 (Z.shiftr (q * p) 32) in
    represents32 p (if h <? g then trunc 32 (trunc 32 (h - g) + p) else trunc 32 (h - g)) (x * y).
  Proof.
    intros HA HB C q h g. pose proof (qu_congr C) as E. fold q in E.
    assert (HC : 0 <= C < 2 ^ 31 * p) by (unfold C; destruct HA as [HA _], HB as [HB _]; clear -HA HB Hp; nia).
    pose proof (trunc_range 32 (trunc 32 C * iv) ltac:(lia)) as Hq. fold q in Hq.
    assert (Hqp : 0 <= q * p < 2 ^ 32 * p) by nia.
    pose proof (Z.div_mod C (2 ^ 32) ltac:(lia)) as DC. pose proof (Z.div_mod (q * p) (2 ^ 32) ltac:(lia)) as DQ.
    pose proof (Z.mod_pos_bound C (2 ^ 32) ltac:(lia)). rewrite E in DQ.
    assert (Eh : h = C / 2 ^ 32) by (unfold h; rewrite Z.shiftr_div_pow2 by lia; apply trunc_small; nia).
    assert (Eg : g = (q * p) / 2 ^ 32) by (unfold g; rewrite Z.shiftr_div_pow2 by lia; apply trunc_small; nia).
    assert (Bh : 0 <= h < p) by nia. assert (Bg : 0 <= g < p) by nia.
    pose proof (quotient C q (h - g) A B x y HA HB eq_refl ltac:(lia)) as Q. rewrite mod_of in Q by lia.
    destruct (Z.ltb_spec (h - g) 0), (Z.ltb_spec h g); try lia.
    - replace (trunc 32 (trunc 32 (h - g) + p)) with (h - g + p); [exact Q|]. unfold trunc. rewrite Z.add_mod_idemp_l by lia. symmetry. apply Z.mod_small. lia.
    - rewrite trunc_small by lia. exact Q.
  Qed.
  Lemma mont_mul_512 a b x y : lanes_represent 16 p a x -> lanes_represent 16 p b y ->
    lanes_represent 16 p (mont_mul_mod32_512 P IV a b) (fun i => x i * y i).
  Proof.
    intros Ha Hb i Hi. pose proof (core_512 (a i) (b i) (x i) (y i) (Ha i Hi) (Hb i Hi)) as H. cbv zeta in H.
    unfold mont_mul_mod32_512, mask_add, cmplt_mask, sub_epi32, blend. rewrite mask_evens by exact Hi. rewrite (P_lane p iv Hodd Hp).
    destruct (lane_cases i) as [[E X]|[E X]]; rewrite E.
    - unfold movehdup, mul_epu32, lane64. rewrite !evn_odd, !evn_evn, even_odd, even_evn, !(P_lane p iv Hodd Hp), !(IV_lane p iv Hodd Hiv). rewrite X. exact H.
    - unfold mul_epu32, lane64. rewrite E, !evn_evn, even_evn, !(P_lane p iv Hodd Hp), !(IV_lane p iv Hodd Hiv). unfold movehdup. rewrite !odd_evn, X. exact H.
  Qed.

  Lemma mont_mul_neon n a b x y : lanes_represent n p a x -> lanes_represent n p b y ->
    lanes_represent n p (mont_mul_mod32_neon P IV a b) (fun i => x i * y i).
  Proof.
    intros Ha Hb i Hi. specialize (Ha i Hi). specialize (Hb i Hi). pose proof (proj1 Ha) as Ra. pose proof (proj1 Hb) as Rb.
    unfold mont_mul_mod32_neon. set (q := vmul a (vmul b IV)).
    assert (Eq : q i = trunc 32 (trunc 32 (a i * b i) * iv)).
    { unfold q, vmul. rewrite (IV_lane p iv Hodd Hiv). unfold trunc. rewrite Z.mul_mod_idemp_r, Z.mul_mod_idemp_l by lia. f_equal. ring. }
    pose proof (q_congr p iv Hodd Hiv (a i * b i)) as E. rewrite <- Eq in E.
    pose proof (s32_range (q i)) as [Bq _]; [rewrite Eq; apply trunc_range; lia|].
    set (C := a i * b i) in *. assert (HC : 0 <= C < 2 ^ 31 * p) by (unfold C; nia).
    assert (Hqp : - (2 ^ 31 * p) <= s32 (q i) * p <= 2 ^ 31 * p) by nia.
    assert (E1 : vqdmulh a b i = trunc 32 (C / 2 ^ 31)) by (rewrite qdmulh_lane, !s32_small by (rewrite ?s32_small; lia); reflexivity).
    assert (E2 : vqdmulh q P i = trunc 32 (s32 (q i) * p / 2 ^ 31)).
    { rewrite qdmulh_lane; rewrite ?(P_lane p iv Hodd Hp); rewrite ?(s32_small p) by lia; [reflexivity|lia|lia]. }
    assert (M : (s32 (q i) * p) mod 2 ^ 31 = C mod 2 ^ 31).
    { replace (2 ^ 32) with (2 ^ 31 * 2) in E by reflexivity. rewrite !Z.rem_mul_r in E by lia. apply (f_equal (fun z => z mod 2 ^ 31)) in E.
      rewrite !(Z.mul_comm (2 ^ 31) (_ mod 2)), !Z.mod_add, !Z.mod_mod in E by lia. exact E. }
    pose proof (Z.div_mod C (2 ^ 31) ltac:(lia)) as D1. pose proof (Z.div_mod (s32 (q i) * p) (2 ^ 31) ltac:(lia)) as D2. rewrite M in D2.
    pose proof (Z.mod_pos_bound C (2 ^ 31) ltac:(lia)).
    set (c := C / 2 ^ 31) in *. set (g := s32 (q i) * p / 2 ^ 31) in *.
    assert (Bc : 0 <= c < p) by nia. assert (Bg : - p <= g < p + 1) by nia.
    assert (Dx : exists D, c - g = 2 * D).
    { pose proof (Z.div_mod C (2 ^ 32) ltac:(lia)). pose proof (Z.div_mod (s32 (q i) * p) (2 ^ 32) ltac:(lia)). rewrite E in *.
      exists (C / 2 ^ 32 - s32 (q i) * p / 2 ^ 32). lia. }
    destruct Dx as [D ED]. assert (BD : - p < D < p) by nia.
    unfold vmls, vhsub, vclt_s32. rewrite (P_lane p iv Hodd Hp). rewrite E1, E2, !s32_trunc, (mls_ones p iv Hodd) by lia. rewrite ED.
    rewrite Z.shiftr_div_pow2 by lia. replace (2 * D / 2 ^ 1) with D by (rewrite Z.mul_comm; symmetry; apply Z.div_mul; lia).
    pose proof (quotient C (s32 (q i)) D (a i) (b i) (x i) (y i) Ha Hb eq_refl ltac:(lia)) as Q. rewrite mod_of in Q by lia.
    replace (c <? g) with (D <? 0) by (destruct (Z.ltb_spec D 0), (Z.ltb_spec c g); lia).
    unfold trunc. rewrite Z.add_mod_idemp_l by lia. destruct (Z.ltb_spec D 0).
    - rewrite Z.mod_small by lia. exact Q.
    - rewrite Z.mod_small by lia. rewrite Z.add_0_r. exact Q.
  Qed.
End Mont.

(** ** Mersenne31 *)
Notation M31 := (set1 mersenne31).
Lemma M31_lane i : M31 i = mersenne31. Proof. reflexivity. Qed.
Lemma split31 C : 0 <= C <= (mersenne31 - 1) * (mersenne31 - 1) ->
  0 <= C mod 2 ^ 31 <= mersenne31 /\ 0 <= C / 2 ^ 31 < mersenne31 /\ (C mod 2 ^ 31 + C / 2 ^ 31) mod mersenne31 = C mod mersenne31.
Proof.
  intros HC. pose proof (Z.mod_pos_bound C (2 ^ 31) ltac:(lia)). pose proof (Z.div_mod C (2 ^ 31) ltac:(lia)) as D. unfold mersenne31 in *.
  split; [lia|]. split; [split; [apply Z.div_pos; lia|apply Z.div_lt_upper_bound; lia]|].
  rewrite <- (Z.mod_add (C mod 2 ^ 31 + C / 2 ^ 31) (C / 2 ^ 31) 2147483647) by lia. f_equal. lia.
Qed.
Lemma mersenne_add_lane a b i C : 0 <= C <= (mersenne31 - 1) * (mersenne31 - 1) -> a i = C mod 2 ^ 31 -> b i = C / 2 ^ 31 -> add_mod32 M31 a b i = C mod mersenne31.
Proof.
  intros HC Ea Eb. destruct (split31 C HC) as (B1 & B2 & E). unfold add_mod32, min_epu32, sub_epi32, add_epi32. rewrite M31_lane, Ea, Eb.
  rewrite (trunc_small 32 (_ + _)) by (unfold mersenne31 in *; lia). rewrite (reduce_min mersenne31 0 eq_refl) by (unfold mersenne31 in *; lia). exact E.
Qed.
Lemma prod_bound a b : 0 <= a < mersenne31 -> 0 <= b < mersenne31 -> 0 <= a * b <= (mersenne31 - 1) * (mersenne31 - 1).
Proof. intros. split; [nia|]. apply Z.mul_le_mono_nonneg; lia. Qed.
Lemma and_mersenne x : Z.land x mersenne31 = x mod 2 ^ 31. Proof. apply (Z.land_ones x 31). lia. Qed.
Lemma mod_mod_31_32 x : (x mod 2 ^ 32) mod 2 ^ 31 = x mod 2 ^ 31.
Proof. replace (2 ^ 32) with (2 ^ 31 * 2) by reflexivity. rewrite Z.rem_mul_r, (Z.mul_comm (2 ^ 31)), Z.mod_add by lia. apply Z.mod_mod. lia. Qed.
Lemma trunc_hi x : 0 <= x < 2 ^ 63 -> trunc 32 (Z.shiftr x 31) = x / 2 ^ 31.
Proof. intros H. rewrite Z.shiftr_div_pow2 by lia. apply trunc_small. split; [apply Z.div_pos; lia|apply Z.div_lt_upper_bound; lia]. Qed.
(** the doubled odd lane *)
Lemma doubled a i : 0 <= a (evn i) < mersenne31 -> 0 <= a (odd_of i) < mersenne31 -> srli_epi64 a 31 (evn i) = 2 * a (odd_of i).
Proof.
  intros Hl Hh. unfold srli_epi64, lane64, q64. rewrite even_evn, evn_evn, odd_evn, Z.shiftr_div_pow2 by lia.
  replace (a (evn i) + 2 ^ 32 * a (odd_of i)) with (a (evn i) + 2 * a (odd_of i) * 2 ^ 31) by ring. rewrite Z.div_add by lia.
  unfold mersenne31 in *. rewrite Z.div_small by lia. rewrite trunc_small; lia.
Qed.
Lemma dbl_hi C : 0 <= C <= (mersenne31 - 1) * (mersenne31 - 1) -> trunc 32 (Z.shiftr (2 * C) 32) = C / 2 ^ 31.
Proof.
  intros HC. rewrite Z.shiftr_div_pow2 by lia. replace (2 ^ 32) with (2 * 2 ^ 31) by reflexivity. rewrite Z.div_mul_cancel_l by lia.
  destruct (split31 C HC) as (_ & B & _). apply trunc_small. unfold mersenne31 in *. lia.
Qed.
Lemma mersenne_avx2 a b n : (n <= 8)%nat -> Nat.even n = true -> lanes_in n mersenne31 a -> lanes_in n mersenne31 b ->
  lanes_are n mersenne31 (mersenne_mul M31 a b) (fun i => a i * b i).
Proof.
  intros Hn Hev Ha Hb i Hi. pose proof (prod_bound _ _ (Ha i Hi) (Hb i Hi)) as HC.
  assert (C62 : 0 <= a i * b i < 2 ^ 62) by (unfold mersenne31 in HC; lia).
  unfold mersenne_mul. cbv zeta. apply mersenne_add_lane; [exact HC| |].
  - unfold and_si, blend. rewrite (mask_odd n) by assumption. rewrite M31_lane, and_mersenne. destruct (lane_cases i) as [[E X]|[E X]]; rewrite E; cbn [negb].
    + unfold mul_epu32, lane64. rewrite E, X. unfold trunc. rewrite mod_mod_31_32. f_equal. ring.
    + assert (Hel : (evn i < n)%nat) by (rewrite <- X in Hi; unfold odd_of, evn in *; lia).
      unfold slli_epi64, lane64 at 1. rewrite E. unfold q64 at 1. unfold mul_epu32, lane64. rewrite !evn_evn, !evn_odd, even_evn, even_odd. unfold movehdup.
      rewrite doubled by (rewrite ?X; apply Ha; assumption). rewrite odd_evn, X. set (x := b i * (2 * a i)).
      assert (Ex : x = 2 * (a i * b i)) by (unfold x; ring). assert (Bx : 0 <= x < 2 ^ 63) by lia.
      assert (Eq : trunc 32 x + 2 ^ 32 * trunc 32 (Z.shiftr x 32) = x).
      { rewrite Z.shiftr_div_pow2 by lia. rewrite (trunc_small 32 (x / 2 ^ 32)) by (split; [apply Z.div_pos; lia|apply Z.div_lt_upper_bound; lia]).
        unfold trunc. pose proof (Z.div_mod x (2 ^ 32) ltac:(lia)). lia. }
      rewrite Eq, Z.shiftl_mul_pow2 by lia. replace (x * 2 ^ 31) with (a i * b i * 2 ^ 32) by (rewrite Ex; ring).
      rewrite hi32_64. rewrite Z.div_mul by lia. unfold trunc. apply mod_mod_31_32.
  - unfold blend. rewrite (mask_odd n) by assumption. destruct (lane_cases i) as [[E X]|[E X]]; rewrite E; cbn [negb].
    + unfold srli_epi64, lane64 at 1. rewrite E. unfold q64, mul_epu32, lane64. rewrite !evn_evn, !evn_odd, even_evn, even_odd, X.
      set (x := b i * a i). assert (Ex : x = a i * b i) by (unfold x; ring).
      assert (Eq : trunc 32 x + 2 ^ 32 * trunc 32 (Z.shiftr x 32) = x).
      { rewrite Z.shiftr_div_pow2 by lia. rewrite (trunc_small 32 (x / 2 ^ 32)) by (split; [apply Z.div_pos; lia|apply Z.div_lt_upper_bound; lia]).
        unfold trunc. pose proof (Z.div_mod x (2 ^ 32) ltac:(lia)). lia. }
      rewrite Eq, trunc_hi by lia. rewrite Ex. reflexivity.
    + assert (Hel : (evn i < n)%nat) by (rewrite <- X in Hi; unfold odd_of, evn in *; lia).
      unfold mul_epu32, lane64. rewrite E. unfold movehdup. rewrite doubled by (rewrite ?X; apply Ha; assumption). rewrite odd_evn, X.
      replace (b i * (2 * a i)) with (2 * (a i * b i)) by ring. apply dbl_hi. exact HC.
Qed.
Lemma half_lo C : 0 <= C -> Z.shiftr (trunc 32 (2 * C)) 1 = C mod 2 ^ 31.
Proof.
  intros H. rewrite Z.shiftr_div_pow2 by lia. unfold trunc. replace (2 ^ 32) with (2 * 2 ^ 31) by reflexivity.
  rewrite Z.mul_mod_distr_l by lia. rewrite Z.mul_comm. apply Z.div_mul. lia.
Qed.
Lemma mersenne_avx512 a b : lanes_in 16 mersenne31 a -> lanes_in 16 mersenne31 b -> lanes_are 16 mersenne31 (mersenne_mul_512 M31 a b) (fun i => a i * b i).
Proof.
  intros Ha Hb i Hi. pose proof (prod_bound _ _ (Ha i Hi) (Hb i Hi)) as HC.
  unfold mersenne_mul_512. cbv zeta. apply mersenne_add_lane; [exact HC| |].
  - unfold srli_epi32, blend. rewrite mask_odds by assumption. destruct (lane_cases i) as [[E X]|[E X]]; rewrite E; cbn [negb].
    + unfold mul_epu32, lane64. rewrite E, X. unfold add_epi32. rewrite (trunc_small 32 (a i + a i)) by (specialize (Ha i Hi); unfold mersenne31 in Ha; lia).
      replace ((a i + a i) * b i) with (2 * (a i * b i)) by ring. apply half_lo. lia.
    + assert (Hel : (evn i < 16)%nat) by (rewrite <- X in Hi; unfold odd_of, evn in *; lia).
      unfold moveldup, mul_epu32, lane64. rewrite even_evn, evn_evn. rewrite doubled by (rewrite ?X; apply Ha; assumption). unfold movehdup. rewrite odd_evn, X.
      replace (2 * a i * b i) with (2 * (a i * b i)) by ring. apply half_lo. lia.
  - unfold blend. rewrite mask_evens by assumption. destruct (lane_cases i) as [[E X]|[E X]]; rewrite E.
    + unfold movehdup at 1, mul_epu32, lane64. rewrite even_odd, evn_odd, X. unfold add_epi32. rewrite (trunc_small 32 (a i + a i)) by (specialize (Ha i Hi); unfold mersenne31 in Ha; lia).
      replace ((a i + a i) * b i) with (2 * (a i * b i)) by ring. apply dbl_hi. exact HC.
    + assert (Hel : (evn i < 16)%nat) by (rewrite <- X in Hi; unfold odd_of, evn in *; lia).
      unfold mul_epu32, lane64. rewrite E. rewrite doubled by (rewrite ?X; apply Ha; assumption). unfold movehdup. rewrite odd_evn, X.
      replace (2 * a i * b i) with (2 * (a i * b i)) by ring. apply dbl_hi. exact HC.
Qed.
Lemma mersenne_neon n a b : lanes_in n mersenne31 a -> lanes_in n mersenne31 b -> lanes_are n mersenne31 (mersenne_mul_neon M31 a b) (fun i => a i * b i).
Proof.
  intros Ha Hb i Hi. specialize (Ha i Hi). specialize (Hb i Hi). pose proof (prod_bound _ _ Ha Hb) as HC. set (C := a i * b i) in *.
  destruct (split31 C HC) as (B1 & B2 & E). unfold mersenne_mul_neon, reduce_sum32, min_epu32, sub_epi32, vmls, vmul. rewrite M31_lane.
  rewrite qdmulh_lane by (rewrite s32_small; unfold mersenne31 in *; lia). rewrite !s32_small by (unfold mersenne31 in *; lia). fold C.
  assert (T : trunc 32 (trunc 32 C - trunc 32 (C / 2 ^ 31) * mersenne31) = C mod 2 ^ 31 + C / 2 ^ 31).
  { rewrite (trunc_small 32 (C / 2 ^ 31)) by (unfold mersenne31 in *; lia). unfold trunc. rewrite Zminus_mod_idemp_l.
    pose proof (Z.div_mod C (2 ^ 31) ltac:(lia)) as D. replace (C - C / 2 ^ 31 * mersenne31) with (C mod 2 ^ 31 + C / 2 ^ 31) by (unfold mersenne31; lia).
    apply Z.mod_small. unfold mersenne31 in *. lia. }
  rewrite T. rewrite (reduce_min mersenne31 0 eq_refl) by (unfold mersenne31 in *; lia). exact E.
Qed.
