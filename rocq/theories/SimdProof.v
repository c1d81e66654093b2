(** Packed 32-bit fields: lanes, modular addition, Montgomery reduction of signed products. *)
From Coq Require Import ZArith Znumtheory List Bool Arith Lia.
From Verif Require Import BigIntModel BigIntProof ParallelizeProof SmallFieldModel SmallFieldSpec SmallFieldProof SimdModel SimdSpec.
Import ListNotations.
Open Scope Z_scope.

(** ** words *)
Lemma trunc32 x : trunc 32 x = x mod 2 ^ 32. Proof. reflexivity. Qed.
Lemma trunc32_64 x : trunc 32 (trunc 64 x) = trunc 32 x.
Proof.
  unfold trunc. replace (2 ^ 64) with (2 ^ 32 * 2 ^ 32) by reflexivity. rewrite Z.rem_mul_r by lia.
  rewrite Z.mul_comm, Z.mod_add by lia. apply Z.mod_mod. lia.
Qed.
Lemma hi32_64 x : trunc 32 (Z.shiftr (trunc 64 x) 32) = trunc 32 (x / 2 ^ 32).
Proof.
  rewrite Z.shiftr_div_pow2 by lia. unfold trunc. replace (2 ^ 64) with (2 ^ 32 * 2 ^ 32) by reflexivity. rewrite Z.rem_mul_r by lia.
  rewrite Z.add_comm, Z.mul_comm, Z.div_add_l by lia. rewrite (Z.div_small (x mod 2 ^ 32)) by (apply Z.mod_pos_bound; lia). rewrite Z.add_0_r. apply Z.mod_mod. lia.
Qed.
Lemma s32_small x : 0 <= x < 2 ^ 31 -> s32 x = x.
Proof. intros H. unfold s32. destruct (Z.ltb_spec x (2 ^ 31)); lia. Qed.
Lemma s32_trunc D : - 2 ^ 31 <= D < 2 ^ 31 -> s32 (trunc 32 D) = D.
Proof.
  intros H. unfold s32, trunc. destruct (Z_lt_dec D 0).
  - replace (D mod 2 ^ 32) with (D + 2 ^ 32) by (apply Z.mod_unique_pos with (q := -1); lia). destruct (Z.ltb_spec (D + 2 ^ 32) (2 ^ 31)); lia.
  - rewrite Z.mod_small by lia. destruct (Z.ltb_spec D (2 ^ 31)); lia.
Qed.
Lemma s32_range x : 0 <= x < 2 ^ 32 -> - 2 ^ 31 <= s32 x < 2 ^ 31 /\ (s32 x) mod 2 ^ 32 = x.
Proof.
  intros H. unfold s32. destruct (Z.ltb_spec x (2 ^ 31)).
  - split; [lia|]. apply Z.mod_small. lia.
  - split; [lia|]. replace (x - 2 ^ 32) with (x + (-1) * 2 ^ 32) by ring. rewrite Z.mod_add by lia. apply Z.mod_small. lia.
Qed.

(** ** lanes *)
Lemma evn_evn i : evn (evn i) = evn i.
Proof. unfold evn. f_equal. rewrite (Nat.mul_comm 2 (Nat.div i 2)). apply Nat.div_mul. lia. Qed.
Lemma half_odd i : Nat.div (2 * Nat.div i 2 + 1) 2 = Nat.div i 2.
Proof. symmetry. apply (Nat.div_unique _ 2 _ 1); lia. Qed.
Lemma evn_odd i : evn (odd_of i) = evn i. Proof. unfold evn, odd_of. rewrite half_odd. reflexivity. Qed.
Lemma odd_odd i : odd_of (odd_of i) = odd_of i. Proof. unfold odd_of. rewrite half_odd. reflexivity. Qed.
Lemma odd_evn i : odd_of (evn i) = odd_of i.
Proof. unfold odd_of. f_equal. exact (evn_evn i). Qed.
Lemma even_evn i : Nat.even (evn i) = true. Proof. unfold evn. rewrite Nat.even_mul. reflexivity. Qed.
Lemma even_odd i : Nat.even (odd_of i) = false. Proof. unfold odd_of. rewrite Nat.even_add, Nat.even_mul. reflexivity. Qed.
Lemma lane_cases i : (Nat.even i = true /\ evn i = i) \/ (Nat.even i = false /\ odd_of i = i).
Proof.
  pose proof (Nat.div_mod i 2 ltac:(lia)) as D. pose proof (Nat.mod_upper_bound i 2 ltac:(lia)) as M.
  destruct (Nat.eq_dec (Nat.modulo i 2) 0) as [E|E].
  - left. assert (X : evn i = i) by (unfold evn; lia). split; [rewrite <- X; apply even_evn|exact X].
  - right. assert (X : odd_of i = i) by (unfold odd_of; lia). split; [rewrite <- X; apply even_odd|exact X].
Qed.
Lemma mask_odd n i : (n <= 8)%nat -> (i < n)%nat -> Z.testbit 170 (Z.of_nat i) = negb (Nat.even i).
Proof. intros Hn Hi. do 8 (destruct i as [|i]; [reflexivity|]). lia. Qed.
Lemma mask_evens i : (i < 16)%nat -> Z.testbit evens (Z.of_nat i) = Nat.even i.
Proof. intros Hi. do 16 (destruct i as [|i]; [reflexivity|]). lia. Qed.
Lemma mask_odds i : (i < 16)%nat -> Z.testbit odds (Z.of_nat i) = negb (Nat.even i).
Proof. intros Hi. do 16 (destruct i as [|i]; [reflexivity|]). lia. Qed.

Section Simd.
  Variables (p iv : Z).
  Hypothesis Hodd : Z.odd p = true.
  Hypothesis Hp : 2 < p < 2 ^ 31.
  Hypothesis Hiv : (p * iv) mod 2 ^ 32 = 1 /\ 0 <= iv < 2 ^ 32.
  Notation P := (set1 p).
  Notation IV := (set1 iv).

  Lemma P_lane i : P i = p. Proof. unfold set1. apply trunc_small. lia. Qed.
  Lemma IV_lane i : IV i = iv. Proof. unfold set1. apply trunc_small. lia. Qed.

  Lemma reduce_min t : 0 <= t < 2 * p -> Z.min t (trunc 32 (t - p)) = t mod p.
  Proof.
    intros Ht. unfold trunc. destruct (Z_lt_dec t p).
    - replace ((t - p) mod 2 ^ 32) with (t - p + 2 ^ 32) by (apply Z.mod_unique_pos with (q := -1); lia). rewrite Z.mod_small by lia. lia.
    - rewrite Z.mod_small by lia. rewrite Z.min_r by lia. apply Z.mod_unique_pos with (q := 1); lia.
  Qed.
  Lemma correct_min D : - p < D < p -> Z.min (trunc 32 D) (trunc 32 (trunc 32 D + p)) = D mod p.
  Proof.
    intros HD. unfold trunc. rewrite Z.add_mod_idemp_l by lia. destruct (Z_lt_dec D 0).
    - replace (D mod 2 ^ 32) with (D + 2 ^ 32) by (apply Z.mod_unique_pos with (q := -1); lia). rewrite (Z.mod_small (D + p)) by lia.
      rewrite Z.min_r by lia. apply Z.mod_unique_pos with (q := -1); lia.
    - rewrite !Z.mod_small by lia. lia.
  Qed.
  Lemma add_lane a b i : 0 <= a i < p -> 0 <= b i < p -> add_mod32 P a b i = (a i + b i) mod p.
  Proof.
    intros Ha Hb. unfold add_mod32, min_epu32, sub_epi32, add_epi32. rewrite P_lane, (trunc_small 32 (a i + b i)) by lia. apply reduce_min. lia.
  Qed.
  Lemma sub_lane a b i : 0 <= a i < p -> 0 <= b i < p -> sub_mod32 P a b i = (a i - b i) mod p.
  Proof. intros Ha Hb. unfold sub_mod32, min_epu32, sub_epi32, add_epi32. rewrite P_lane. apply correct_min. lia. Qed.
  Lemma neg_small x : 0 <= x < p -> (- x) mod p = if x =? 0 then 0 else p - x.
  Proof.
    intros Hx. destruct (Z.eqb_spec x 0) as [->|Ne]; [apply Z.mod_0_l; lia|]. symmetry. apply Z.mod_unique_pos with (q := -1); lia.
  Qed.
  Lemma negate_lane a i : 0 <= a i < p -> negate_mod32 P a i = (- a i) mod p.
  Proof.
    intros Ha. unfold negate_mod32, sign_epi32, sub_epi32. rewrite P_lane, s32_small by lia. rewrite neg_small by lia.
    destruct (Z.ltb_spec (a i) 0); [lia|]. destruct (Z.eqb_spec (a i) 0); [reflexivity|]. apply trunc_small. lia.
  Qed.
  Lemma negate_lane_512 a i : 0 <= a i < p -> negate_mod32_512 P a i = (- a i) mod p.
  Proof.
    intros Ha. unfold negate_mod32_512, maskz_sub, test_mask. rewrite P_lane, Z.land_diag, neg_small by lia.
    destruct (Z.eqb_spec (a i) 0); [reflexivity|]. apply trunc_small. lia.
  Qed.
  Lemma add_lane_neon a b i : 0 <= a i < p -> 0 <= b i < p -> add_mod32_neon P a b i = (a i + b i) mod p.
  Proof. exact (add_lane a b i). Qed.
  Lemma mls_ones x c : trunc 32 (x - ones_if c * p) = trunc 32 (x + if c then p else 0).
  Proof.
    unfold trunc. destruct c; unfold ones_if; [|f_equal; ring].
    replace (x - (2 ^ 32 - 1) * p) with (x + p + - p * 2 ^ 32) by ring. apply Z.mod_add. lia.
  Qed.
  Lemma sub_lane_neon a b i : 0 <= a i < p -> 0 <= b i < p -> sub_mod32_neon P a b i = (a i - b i) mod p.
  Proof.
    intros Ha Hb. unfold sub_mod32_neon, vmls, vclt_u32, sub_epi32. rewrite P_lane, mls_ones. unfold trunc. rewrite Z.add_mod_idemp_l by lia.
    destruct (Z.ltb_spec (a i) (b i)).
    - rewrite Z.mod_small by lia. apply Z.mod_unique_pos with (q := -1); lia.
    - rewrite Z.add_0_r. rewrite !Z.mod_small by lia. reflexivity.
  Qed.
  Lemma negate_lane_neon a i : 0 <= a i < p -> negate_mod32_neon P a i = (- a i) mod p.
  Proof.
    intros Ha. unfold negate_mod32_neon, vbic, vceqz, sub_epi32. rewrite P_lane, (trunc_small 32 (p - a i)) by lia. rewrite neg_small by lia.
    destruct (Z.eqb_spec (a i) 0); unfold ones_if.
    - rewrite Z.lxor_nilpotent, Z.land_0_r. reflexivity.
    - rewrite Z.lxor_0_l. change (2 ^ 32 - 1) with (Z.ones 32). rewrite Z.land_ones by lia. apply Z.mod_small. lia.
  Qed.

  (** ** Montgomery reduction of the signed product C *)
  Lemma q_congr C : (s32 (trunc 32 (trunc 32 C * iv)) * p) mod 2 ^ 32 = C mod 2 ^ 32.
  Proof.
    pose proof (s32_range (trunc 32 (trunc 32 C * iv)) (trunc_range 32 _ ltac:(lia))) as [_ E]. rewrite <- Z.mul_mod_idemp_l, E by lia. unfold trunc.
    rewrite Z.mul_mod_idemp_l, <- Z.mul_assoc, (Z.mul_comm iv p), <- Z.mul_mod_idemp_r, (proj1 Hiv), Z.mul_1_r by lia. apply Z.mod_mod. lia.
  Qed.
  Definition qd (C : Z) : Z := (C - s32 (trunc 32 (trunc 32 C * iv)) * p) / 2 ^ 32.
  Lemma qd_exact C : qd C * 2 ^ 32 = C - s32 (trunc 32 (trunc 32 C * iv)) * p.
  Proof.
    unfold qd. set (q := s32 _ * p). pose proof (q_congr C) as E. fold q in E.
    rewrite Z.mul_comm. symmetry. apply Z.div_exact; [lia|]. rewrite Zminus_mod, E, Z.sub_diag. reflexivity.
  Qed.
  Lemma qd_diff C : qd C = C / 2 ^ 32 - (s32 (trunc 32 (trunc 32 C * iv)) * p) / 2 ^ 32.
  Proof.
    pose proof (qd_exact C) as H. set (q := s32 _ * p) in *. pose proof (q_congr C) as E. fold q in E.
    pose proof (Z.div_mod C (2 ^ 32) ltac:(lia)). pose proof (Z.div_mod q (2 ^ 32) ltac:(lia)). lia.
  Qed.
  Lemma qd_bound C : - (2 ^ 31 * p) < C < 2 ^ 31 * p -> - p < qd C < p.
  Proof.
    intros HC. pose proof (qd_exact C) as E. pose proof (s32_range (trunc 32 (trunc 32 C * iv)) (trunc_range 32 _ ltac:(lia))) as [B _].
    set (q := s32 _) in *. assert (- (2 ^ 31 * p) <= q * p <= 2 ^ 31 * p) by nia. lia.
  Qed.
  Lemma partial_red_lane a C i : a (evn i) = trunc 32 C -> a (odd_of i) = trunc 32 (C / 2 ^ 32) ->
    partial_red P IV a (odd_of i) = trunc 32 (qd C).
  Proof.
    intros Hl Hh. unfold partial_red, sub_epi32, mul_epi32. rewrite !evn_odd, !evn_evn, P_lane, IV_lane. unfold lane64. rewrite even_odd, even_evn.
    rewrite hi32_64, trunc32_64. rewrite Hh, Hl.
    assert (E : trunc 32 (s32 (trunc 32 C) * s32 iv) = trunc 32 (trunc 32 C * iv)).
    { unfold trunc at 1 3. rewrite Z.mul_mod by lia. rewrite (proj2 (s32_range (trunc 32 C) (trunc_range 32 _ ltac:(lia)))), (proj2 (s32_range iv (proj2 Hiv))).
      rewrite (Z.mul_mod (trunc 32 C) iv) by lia. rewrite (Z.mod_small iv) by lia. rewrite (Z.mod_small (trunc 32 C)) by (apply trunc_range; lia). reflexivity. }
    rewrite E, (s32_small p) by lia. rewrite qd_diff. set (x := C / 2 ^ 32). set (y := _ * p / 2 ^ 32). unfold trunc. rewrite <- Zminus_mod. reflexivity.
  Qed.

  Notation "a == b" := (eqm p a b) (at level 70).
  (** a signed residue in Montgomery form *)
  Definition srep (D x : Z) : Prop := - p < D < p /\ D == x * 2 ^ 32.
  Lemma srep_mul D1 D2 x1 x2 : srep D1 x1 -> srep D2 x2 -> srep (qd (D1 * D2)) (x1 * x2).
  Proof.
    intros [B1 E1] [B2 E2]. split.
    - apply qd_bound. split; nia.
    - apply (eqm_cancel p Hodd Hp). apply (ct p _ (D1 * D2)).
      + rewrite qd_exact. unfold eqm. rewrite <- (Z.mod_add (D1 * D2 - _) (s32 (trunc 32 (trunc 32 (D1 * D2) * iv))) p) by lia. f_equal. ring.
      + replace (x1 * x2 * 2 ^ 32 * 2 ^ 32) with (x1 * 2 ^ 32 * (x2 * 2 ^ 32)) by ring. apply (cmul p); assumption.
  Qed.
  Lemma srep_of a x : represents32 p a x -> srep a x.
  Proof. intros [H E]. split; [lia|]. unfold eqm. rewrite <- E. apply Z.mod_small. exact H. Qed.
  Lemma srep_to D x : srep D x -> represents32 p (D mod p) x.
  Proof. intros [_ E]. split; [apply Z.mod_pos_bound; lia|exact E]. Qed.

  Lemma mul_epi32_lanes a b i D1 D2 : a (evn i) = trunc 32 D1 -> b (evn i) = trunc 32 D2 -> - p < D1 < p -> - p < D2 < p ->
    mul_epi32 a b (evn i) = trunc 32 (D1 * D2) /\ mul_epi32 a b (odd_of i) = trunc 32 (D1 * D2 / 2 ^ 32).
  Proof.
    intros Ha Hb H1 H2. unfold mul_epi32. rewrite evn_evn, evn_odd, Ha, Hb, !s32_trunc by lia. unfold lane64. rewrite even_odd, even_evn.
    split; [apply trunc32_64|apply hi32_64].
  Qed.
  Lemma signed_lane a b i D1 D2 x1 x2 : a (evn i) = trunc 32 D1 -> b (evn i) = trunc 32 D2 -> srep D1 x1 -> srep D2 x2 ->
    exists D, monty_mul_signed P IV a b (odd_of i) = trunc 32 D /\ srep D (x1 * x2).
  Proof.
    intros Ha Hb S1 S2. exists (qd (D1 * D2)). split; [|apply srep_mul; assumption].
    destruct (mul_epi32_lanes a b i D1 D2 Ha Hb (proj1 S1) (proj1 S2)) as [L H]. apply partial_red_lane; assumption.
  Qed.
  Lemma square_lane a i D x : a (evn i) = trunc 32 D -> srep D x -> exists D', (forall j, evn j = evn i -> shifted_square P IV a j = trunc 32 D') /\ srep D' (x * x).
  Proof.
    intros Ha S1. destruct (signed_lane a a i D D x x Ha Ha S1 S1) as (D' & E & S'). exists D'. split; [|exact S'].
    intros j Hj. unfold shifted_square, movehdup. replace (odd_of j) with (odd_of i); [exact E|]. rewrite <- (odd_evn i), <- Hj, odd_evn. reflexivity.
  Qed.
  Lemma monty_mul_lane a b i x y : represents32 p (a (evn i)) x -> represents32 p (b (evn i)) y ->
    exists D, monty_mul P IV a b (odd_of i) = trunc 32 D /\ srep D (x * y).
  Proof.
    intros Ha Hb. exists (qd (a (evn i) * b (evn i))). split; [|apply srep_mul; apply srep_of; assumption].
    unfold monty_mul. apply partial_red_lane; unfold mul_epu32, lane64.
    - rewrite evn_evn, even_evn. reflexivity.
    - rewrite evn_odd, even_odd, Z.shiftr_div_pow2 by lia. reflexivity.
  Qed.

  (** even and odd lanes brought together *)
  Lemma finish_lane f1 f2 a x n i : (n <= 8)%nat -> (i < n)%nat ->
    (forall i, Nat.even i = true -> evn i = i -> (i < n)%nat -> exists D, f1 (odd_of i) = trunc 32 D /\ srep D (x i)) ->
    (forall i, Nat.even i = false -> odd_of i = i -> (i < n)%nat -> exists D, f2 (odd_of i) = trunc 32 D /\ srep D (x i)) ->
    (forall i, a i = blend (movehdup f1) f2 170 i) ->
    represents32 p (min_epu32 a (add_epi32 a P) i) (x i).
  Proof.
    intros Hn Hi H1 H2 Ea. unfold min_epu32, add_epi32. rewrite P_lane, Ea. unfold blend. rewrite (mask_odd n) by assumption.
    destruct (lane_cases i) as [[E X]|[E X]]; rewrite E; cbn [negb].
    - destruct (H1 i E X Hi) as (D & ED & SD). unfold movehdup. rewrite ED, correct_min by apply SD. apply srep_to. exact SD.
    - destruct (H2 i E X Hi) as (D & ED & SD). rewrite X in ED. rewrite ED, correct_min by apply SD. apply srep_to. exact SD.
  Qed.
  Lemma mont_mul_lanes n a b x y : (n <= 8)%nat -> lanes_represent n p a x -> lanes_represent n p b y ->
    lanes_represent n p (mont_mul_mod32 P IV a b) (fun i => x i * y i).
  Proof.
    intros Hn Ha Hb i Hi. unfold mont_mul_mod32.
    apply finish_lane with (x := fun i => x i * y i) (n := n) (f1 := monty_mul P IV a b) (f2 := monty_mul P IV (movehdup a) (movehdup b)); try assumption; [| |reflexivity].
    - intros j _ E Hj. apply monty_mul_lane; rewrite E; [apply Ha|apply Hb]; exact Hj.
    - intros j _ E Hj. apply monty_mul_lane; unfold movehdup; rewrite odd_evn, E; [apply Ha|apply Hb]; exact Hj.
  Qed.
  Lemma apply_lanes n a x f g : (n <= 8)%nat -> lanes_represent n p a x ->
    (forall a i x, represents32 p (a (evn i)) x -> exists D, f a (odd_of i) = trunc 32 D /\ srep D (g x)) ->
    lanes_represent n p (apply_even_odd P IV a f) (fun i => g (x i)).
  Proof.
    intros Hn Ha Hf i Hi. unfold apply_even_odd.
    apply finish_lane with (x := fun i => g (x i)) (n := n) (f1 := f a) (f2 := f (movehdup a)); try assumption; [| |reflexivity].
    - intros j _ E Hj. apply Hf. rewrite E. apply Ha. exact Hj.
    - intros j _ E Hj. apply Hf. unfold movehdup. rewrite odd_evn, E. apply Ha. exact Hj.
  Qed.
  Lemma rep_trunc a x : represents32 p a x -> a = trunc 32 a.
  Proof. intros [H _]. symmetry. apply trunc_small. lia. Qed.
  Lemma exp3_lanes n a x : (n <= 8)%nat -> lanes_represent n p a x -> lanes_represent n p (exp3 P IV a) (fun i => x i ^ 3).
  Proof.
    intros Hn Ha. unfold exp3. apply (apply_lanes n a x _ (fun x => x ^ 3)); try assumption. clear n a x Hn Ha. intros a i x Hx.
    destruct (square_lane a i _ x (rep_trunc _ _ Hx) (srep_of _ _ Hx)) as (D & E & S).
    replace (x ^ 3) with (x * x * x) by ring. unfold do_exp3. apply signed_lane with (D1 := D) (D2 := a (evn i)); try assumption.
    - apply E, evn_evn.
    - exact (rep_trunc _ _ Hx).
    - exact (srep_of _ _ Hx).
  Qed.
  Lemma exp5_lanes n a x : (n <= 8)%nat -> lanes_represent n p a x -> lanes_represent n p (exp5 P IV a) (fun i => x i ^ 5).
  Proof.
    intros Hn Ha. unfold exp5. apply (apply_lanes n a x _ (fun x => x ^ 5)); try assumption. clear n a x Hn Ha. intros a i x Hx.
    destruct (square_lane a i _ x (rep_trunc _ _ Hx) (srep_of _ _ Hx)) as (D & E & S).
    destruct (square_lane (shifted_square P IV a) i D (x * x) (E _ (evn_evn i)) S) as (D2 & E2 & S2).
    replace (x ^ 5) with (x * x * (x * x) * x) by ring. unfold do_exp5. apply signed_lane with (D1 := D2) (D2 := a (evn i)); try assumption.
    - apply E2, evn_evn.
    - exact (rep_trunc _ _ Hx).
    - exact (srep_of _ _ Hx).
  Qed.
  Lemma exp7_lanes n a x : (n <= 8)%nat -> lanes_represent n p a x -> lanes_represent n p (exp7 P IV a) (fun i => x i ^ 7).
  Proof.
    intros Hn Ha. unfold exp7. apply (apply_lanes n a x _ (fun x => x ^ 7)); try assumption. clear n a x Hn Ha. intros a i x Hx.
    destruct (square_lane a i _ x (rep_trunc _ _ Hx) (srep_of _ _ Hx)) as (D & E & S).
    destruct (square_lane (shifted_square P IV a) i D (x * x) (E _ (evn_evn i)) S) as (D2 & E2 & S2).
    destruct (signed_lane (shifted_square P IV a) a i D (a (evn i)) (x * x) x (E _ (evn_evn i)) (rep_trunc _ _ Hx) S (srep_of _ _ Hx)) as (D3 & E3 & S3).
    replace (x ^ 7) with (x * x * (x * x) * (x * x * x)) by ring. unfold do_exp7. apply signed_lane with (D1 := D2) (D2 := D3); try assumption.
    - apply E2, evn_evn.
    - unfold movehdup. rewrite odd_evn. exact E3.
  Qed.
End Simd.
