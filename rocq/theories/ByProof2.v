(** The 62-bit inverse and the transition matrix. *)
From Coq Require Import ZArith List Bool Lia Zdiv Znumtheory Setoid Morphisms.
From Verif Require Import ByModel BySpec ByProof.
Import ListNotations.
Open Scope Z_scope.

(** ** Congruences. *)
Lemma u64_div z : (2 ^ 64 | u64 z - z).
Proof. unfold u64. exists (- (z / 2 ^ 64)). pose proof (Z.div_mod z (2 ^ 64)). lia. Qed.
Lemma u64_range z : 0 <= u64 z < 2 ^ 64.
Proof. apply Z.mod_pos_bound. lia. Qed.
Lemma pow_divide a b : 0 <= a <= b -> (2 ^ a | 2 ^ b).
Proof. intros. exists (2 ^ (b - a)). rewrite <- Z.pow_add_r by lia. f_equal. lia. Qed.
Lemma u64_divs s z : 0 <= s <= 64 -> (2 ^ s | u64 z - z).
Proof. intros. eapply Z.divide_trans; [apply pow_divide | apply u64_div]; lia. Qed.
Lemma lxor_mod32 a b : 0 <= b < 32 -> (Z.lxor a b) mod 32 = Z.lxor (a mod 32) b.
Proof.
  intros H. apply Z.bits_inj'. intros i Hi. change 32 with (2 ^ 5) in *. destruct (Z.ltb_spec i 5).
  - rewrite Z.mod_pow2_bits_low, !Z.lxor_spec, Z.mod_pow2_bits_low by lia. reflexivity.
  - rewrite Z.mod_pow2_bits_high by lia. rewrite Z.lxor_spec, Z.mod_pow2_bits_high by lia.
    rewrite <- (Z.mod_small b (2 ^ 5)), Z.mod_pow2_bits_high by lia. reflexivity.
Qed.
Definition chk32 (c t : Z) : bool :=
  forallb (fun k => let r := 2 * Z.of_nat k + 1 in (Z.lxor ((3 * r) mod 32) c * r) mod 32 =? t) (seq 0 16).
Lemma inv32_gen c t v : 0 <= c < 32 -> chk32 c t = true -> Z.odd v = true -> (Z.lxor (u64 (3 * v)) c * v) mod 32 = t.
Proof.
  intros Hc Hk Ho. rewrite Z.mul_mod, lxor_mod32 by lia.
  assert (E : u64 (3 * v) mod 32 = (3 * (v mod 32)) mod 32).
  { unfold u64. change (2 ^ 64) with (32 * 2 ^ 59). rewrite Z.rem_mul_r, (Z.mul_comm 32), Z.mod_add, Z.mod_mod by lia.
    rewrite Z.mul_mod_idemp_r by lia. reflexivity. }
  rewrite E. clear E. assert (exists k, (k < 16)%nat /\ v mod 32 = 2 * Z.of_nat k + 1) as (k & Hk16 & ->).
  { exists (Z.to_nat ((v mod 32) / 2)). pose proof (Z.mod_pos_bound v 32 ltac:(lia)) as B.
    pose proof (Z.div_pos (v mod 32) 2 ltac:(lia) ltac:(lia)). pose proof (Z.div_lt_upper_bound (v mod 32) 2 16 ltac:(lia) ltac:(lia)).
    split; [lia |]. rewrite Z2Nat.id by lia.
    assert (v mod 32 mod 2 = 1).
    { rewrite <- Zmod_div_mod; [| lia | lia | exists 16; reflexivity]. rewrite Zmod_odd, Ho. reflexivity. }
    pose proof (Z.div_mod (v mod 32) 2). lia. }
  unfold chk32 in Hk. rewrite forallb_forall in Hk. specialize (Hk k). cbv zeta in Hk. apply Z.eqb_eq.
  apply Hk. apply in_seq. lia.
Qed.

(** ** Invert62. *)
Lemma u64_idem z : u64 (u64 z) = u64 z.
Proof. apply Z.mod_mod. lia. Qed.
Lemma U_mul a b a' b' : u64 a = u64 a' -> u64 b = u64 b' -> u64 (a * b) = u64 (a' * b').
Proof. unfold u64. intros A B. rewrite Z.mul_mod, A, B, <- Z.mul_mod by lia. reflexivity. Qed.
Lemma U_add a b a' b' : u64 a = u64 a' -> u64 b = u64 b' -> u64 (a + b) = u64 (a' + b').
Proof. unfold u64. intros A B. rewrite Z.add_mod, A, B, <- Z.add_mod by lia. reflexivity. Qed.
Lemma U_sub a b a' b' : u64 a = u64 a' -> u64 b = u64 b' -> u64 (a - b) = u64 (a' - b').
Proof. unfold u64. intros A B. rewrite Zminus_mod, A, B, <- Zminus_mod. reflexivity. Qed.
Lemma invert62_ok v : Z.odd v = true -> (v * invert62 v) mod 2 ^ 62 = 1 /\ 0 <= invert62 v < 2 ^ 62.
Proof.
  intros Ho. unfold invert62. cbv zeta. rewrite land_mask. split; [| apply mod62]. rewrite Z.mul_mod_idemp_r by lia.
  set (x0 := Z.lxor (u64 (3 * v)) 2). assert (H0 : (x0 * v) mod 32 = 1) by (apply inv32_gen; [lia | reflexivity | exact Ho]).
  clearbody x0. set (y0 := 1 - x0 * v). assert (Hy : exists q, y0 = 32 * q).
  { exists (- ((x0 * v) / 32)). unfold y0. pose proof (Z.div_mod (x0 * v) 32). lia. }
  set (res := u64 _). assert (R : (v * res) mod 2 ^ 64 = 1 mod 2 ^ 64).
  { assert (C : u64 (v * res) = u64 (1 - y0 ^ 16)).
    { replace (1 - y0 ^ 16) with (v * (x0 * (1 - x0 * v + 1) * ((1 - x0 * v) * (1 - x0 * v) + 1) *
        ((1 - x0 * v) * (1 - x0 * v) * ((1 - x0 * v) * (1 - x0 * v)) + 1) *
        ((1 - x0 * v) * (1 - x0 * v) * ((1 - x0 * v) * (1 - x0 * v)) * ((1 - x0 * v) * (1 - x0 * v) * ((1 - x0 * v) * (1 - x0 * v))) + 1)))
        by (unfold y0; ring).
      unfold res. clear. repeat first [reflexivity | apply U_sub | apply U_mul | apply U_add | rewrite u64_idem]. }
    unfold u64 in C. rewrite C.
    destruct Hy as [q ->]. replace (1 - (32 * q) ^ 16) with (1 + (- (q ^ 16) * 2 ^ 16) * 2 ^ 64) by ring.
    apply Z.mod_add. lia. }
  assert (R2 : (v * res) mod 2 ^ 64 mod 2 ^ 62 = 1 mod 2 ^ 64 mod 2 ^ 62) by (rewrite R; reflexivity).
  rewrite <- Zmod_div_mod in R2; [exact R2 | lia | lia | exists 4; reflexivity].
Qed.

(** ** Trailing zeros. *)
Lemma ctz_spec g : 0 < g -> exists q, g = 2 ^ ctz g * q /\ Z.odd q = true /\ 0 <= ctz g.
Proof.
  destruct g as [|p|p]; try lia. intros _. cbn [ctz]. induction p as [p IH|p IH|].
  - exists (Zpos p~1). split; [cbn [ctz_pos]; lia | split; [reflexivity | cbn [ctz_pos]; lia]].
  - destruct IH as (q & E & O & Z0). exists q. cbn [ctz_pos]. rewrite Z.pow_add_r by lia. split; [| split; [exact O | lia]].
    rewrite Pos2Z.inj_xO, E at 1. ring.
  - exists 1. split; [reflexivity | split; [reflexivity | cbn [ctz_pos]; lia]].
Qed.
Lemma odd_div2 a : Z.odd a = true -> (2 | a)%Z -> False.
Proof. intros O [k ->]. rewrite Z.odd_mul in O. cbn in O. rewrite andb_false_r in O. discriminate. Qed.
Lemma ctz_ge g z : 0 <= g < 2 ^ 64 -> 0 <= z <= 64 -> (2 ^ z | g) -> z <= ctz g.
Proof.
  intros Hg Hz [c E]. destruct (Z.eq_dec g 0) as [-> | Hn]; [cbn; lia |].
  destruct (ctz_spec g) as (q & Eq & O & Hc); [lia |]. destruct (Z.le_gt_cases z (ctz g)); [assumption |]. exfalso.
  apply (odd_div2 q O). exists (c * 2 ^ (z - ctz g - 1)). apply (Z.mul_reg_l _ _ (2 ^ ctz g)); [pose proof (Z.pow_pos_nonneg 2 (ctz g)); lia |].
  set (k := ctz g) in *. clearbody k. rewrite <- Eq, E.
  replace (2 ^ z) with (2 ^ (k + (z - k - 1 + 1))) by (f_equal; lia). rewrite !Z.pow_add_r by lia. ring.
Qed.
Lemma zeros_spec g s : 0 <= g < 2 ^ 64 -> 0 <= s <= 62 -> let zs := Z.min (ctz g) s in
  0 <= zs <= s /\ (2 ^ zs | g) /\ (zs < s -> Z.odd (Z.shiftr g zs) = true).
Proof.
  intros Hg Hs zs. destruct (Z.eq_dec g 0) as [-> | Hn].
  - unfold zs. cbn [ctz]. split; [lia |]. split; [apply Z.divide_0_r | lia].
  - destruct (ctz_spec g) as (q & Eq & O & Hc); [lia |]. split; [lia |]. split.
    + apply Z.divide_trans with (2 ^ ctz g); [apply pow_divide; lia |]. exists q. rewrite Z.mul_comm. exact Eq.
    + intros Hl. replace zs with (ctz g) by lia. rewrite Z.shiftr_div_pow2 by lia. rewrite Eq at 1.
      rewrite Z.mul_comm, Z.div_mul; [exact O |]. pose proof (Z.pow_pos_nonneg 2 (ctz g)). lia.
Qed.

(** ** Jump. *)
Section Jump.
Variables F G : Z.
Record inv (f g s z : Z) (t00 t01 t10 t11 : Z) (f' g' : Z) : Prop := mkinv0 {
  i_s : 0 <= s <= 62;
  i_z : 0 <= z <= s;
  i_f : 0 <= f < 2 ^ 64;
  i_g : 0 <= g < 2 ^ 64;
  i_zg : (2 ^ z | g);
  i_r0 : t00 * F + t01 * G = 2 ^ (62 - s) * f';
  i_r1 : t10 * F + t11 * G = 2 ^ (62 - s) * g';
  i_o : Z.odd f' = true;
  i_ff : (2 ^ s | f - f');
  i_gg : (2 ^ s | g - g');
  i_d : t00 * t11 - t01 * t10 = 2 ^ (62 - s);
  i_b0 : Z.abs t00 + Z.abs t01 <= 2 ^ (62 - s);
  i_b1 : Z.abs t10 + Z.abs t11 <= 2 ^ (62 - s) * 2 ^ z
}.
Definition final (d s : Z) (r : Z * mat) : Prop :=
  let '(d', (t00, t01, t10, t11)) := r in
  Z.abs d' <= Z.abs d + s /\
  (exists f', t00 * F + t01 * G = 2 ^ 62 * f' /\ Z.odd f' = true) /\ (exists g', t10 * F + t11 * G = 2 ^ 62 * g') /\
  t00 * t11 - t01 * t10 = 2 ^ 62 /\ Z.abs t00 + Z.abs t01 <= 2 ^ 62 /\ Z.abs t10 + Z.abs t11 <= 2 ^ 62.

Lemma pow_le a b : 0 <= a <= b -> 2 ^ a <= 2 ^ b.
Proof. intros. apply Z.pow_le_mono_r; lia. Qed.
Lemma div_mul_cancel a b c : a <> 0 -> (a * b | a * c) -> (b | c).
Proof. intros H [k E]. exists k. apply (Z.mul_reg_l _ _ a); [exact H |]. rewrite E. ring. Qed.
Lemma odd_cong s a b : 1 <= s -> (2 ^ s | a - b) -> Z.odd a = Z.odd b.
Proof.
  intros Hs H. assert (D : (2 | a - b)) by (apply Z.divide_trans with (2 ^ s); [apply (pow_divide 1); lia | exact H]).
  destruct D as [k D]. replace a with (b + k * 2) by lia. rewrite Z.odd_add, Z.odd_mul. cbn. rewrite andb_false_r, xorb_false_r. reflexivity.
Qed.
Lemma i64_abs z : Z.abs z <= 2 ^ 62 -> i64 z = z.
Proof. intros. apply i64_small. lia. Qed.
Lemma i64_u64 z : Z.abs z <= 2 ^ 62 -> i64 (u64 z) = z.
Proof.
  intros H. unfold i64, u64. rewrite Z.add_mod_idemp_l by lia. apply i64_small. lia.
Qed.
(* the state after the shift *)
Lemma shift_step f g s z t00 t01 t10 t11 f' g' : inv f g s z t00 t01 t10 t11 f' g' ->
  let zs := Z.min (ctz g) s in
  z <= zs /\ exists g'', inv f (Z.shiftr g zs) (s - zs) 0 (i64 (Z.shiftl t00 zs)) (i64 (Z.shiftl t01 zs)) t10 t11 f' g'' /\
    (zs < s -> Z.odd (Z.shiftr g zs) = true).
Proof.
  intros [Hs Hz Hf Hg Hzg R0 R1 Od FF GG D B0 B1] zs.
  destruct (zeros_spec g s Hg Hs) as (Z1 & Z2 & Z3). fold zs in Z1, Z2, Z3.
  assert (Hzz : z <= zs) by (pose proof (ctz_ge g z Hg ltac:(lia) Hzg); unfold zs; lia).
  split; [exact Hzz |]. pose proof (Z.pow_pos_nonneg 2 zs ltac:(lia) ltac:(lia)) as Pz.
  assert (DG : (2 ^ zs | g')).
  { replace g' with (g - (g - g')) by lia. apply Z.divide_sub_r; [exact Z2 |].
    apply Z.divide_trans with (2 ^ s); [apply pow_divide; lia | exact GG]. }
  destruct DG as [g'' Eg]. destruct Z2 as [g1 Eg1]. exists g''.
  assert (Sh : Z.shiftr g zs = g1) by (rewrite Z.shiftr_div_pow2 by lia; rewrite Eg1; apply Z.div_mul; lia).
  assert (PP : 2 ^ (62 - (s - zs)) = 2 ^ (62 - s) * 2 ^ zs) by (rewrite <- Z.pow_add_r by lia; f_equal; lia).
  assert (P62 : 2 ^ (62 - (s - zs)) <= 2 ^ 62) by (apply pow_le; lia).
  pose proof (Z.pow_pos_nonneg 2 (62 - s) ltac:(lia) ltac:(lia)) as Ps.
  assert (A0 : Z.abs (t00 * 2 ^ zs) + Z.abs (t01 * 2 ^ zs) <= 2 ^ (62 - (s - zs))).
  { rewrite !Z.abs_mul, (Z.abs_eq (2 ^ zs)) by (clear - Pz; lia). rewrite PP, <- Z.mul_add_distr_r.
    apply Z.mul_le_mono_nonneg_r; [clear - Pz; lia | exact B0]. }
  split; [| exact Z3]. rewrite !Z.shiftl_mul_pow2 by (clear - Z1; lia).
  pose proof (Z.abs_nonneg (t00 * 2 ^ zs)) as N0. pose proof (Z.abs_nonneg (t01 * 2 ^ zs)) as N1.
  rewrite (i64_abs (t00 * 2 ^ zs)), (i64_abs (t01 * 2 ^ zs)) by (clear - A0 P62 N0 N1; lia). rewrite Sh in *.
  assert (Hg1 : g1 <= g /\ 0 <= g1).
  { clear - Eg1 Pz Hg. set (p := 2 ^ zs) in *. clearbody p. assert (0 <= g1) by (apply (Z.mul_nonneg_cancel_r g1 p); lia).
    split; [rewrite Eg1; nia | assumption]. }
  constructor.
  - clear - Hs Z1. lia.
  - clear - Hs Z1. lia.
  - exact Hf.
  - clear - Hg Hg1. lia.
  - apply Z.divide_1_l.
  - rewrite PP. replace (t00 * 2 ^ zs * F + t01 * 2 ^ zs * G) with ((t00 * F + t01 * G) * 2 ^ zs) by ring. rewrite R0. ring.
  - rewrite R1, PP, Eg. ring.
  - exact Od.
  - apply Z.divide_trans with (2 ^ s); [apply pow_divide; lia | exact FF].
  - apply (div_mul_cancel (2 ^ zs)); [lia |]. rewrite <- Z.pow_add_r by lia. replace (zs + (s - zs)) with s by lia.
    replace (2 ^ zs * (g1 - g'')) with (g - g') by (rewrite Eg, Eg1; ring). exact GG.
  - rewrite PP, <- D. ring.
  - exact A0.
  - rewrite PP. change (2 ^ 0) with 1. rewrite Z.mul_1_r. eapply Z.le_trans; [exact B1 |].
    apply Z.mul_le_mono_nonneg_l; [clear - Ps; lia | apply pow_le; clear - Hz Hzz; lia].
Qed.
Lemma swap_step f g s t00 t01 t10 t11 f' g' : 1 <= s -> Z.odd g = true -> inv f g s 0 t00 t01 t10 t11 f' g' ->
  inv g (u64 (- f)) s 0 t10 t11 (i64 (- t00)) (i64 (- t01)) g' (- f').
Proof.
  intros H1 Og [Hs Hz Hf Hg Hzg R0 R1 Od FF GG D B0 B1]. change (2 ^ 0) with 1 in B1. rewrite Z.mul_1_r in B1.
  assert (P62 : 2 ^ (62 - s) <= 2 ^ 62) by (apply pow_le; lia).
  rewrite (i64_abs (- t00)), (i64_abs (- t01)) by (clear - B0 P62; lia). pose proof (u64_range (- f)) as Uf.
  constructor; try assumption.
  - apply Z.divide_1_l.
  - clear - R0. lia.
  - rewrite <- (odd_cong s g g') by assumption. exact Og.
  - replace (u64 (- f) - - f') with ((u64 (- f) - - f) - (f - f')) by lia. apply Z.divide_sub_r; [apply u64_divs; clear - Hs; lia | exact FF].
  - clear - D. lia.
  - change (2 ^ 0) with 1. rewrite Z.mul_1_r. clear - B0. lia.
Qed.
Lemma add_step f g s m t00 t01 t10 t11 f' g' : 1 <= m <= 5 -> m <= s -> inv f g s 0 t00 t01 t10 t11 f' g' ->
  let w := Z.land (u64 (g * Z.lxor (u64 (3 * f)) 28)) (Z.shiftl 1 m - 1) in
  inv f (u64 (g + w * f)) s m t00 t01 (i64 (u64 (t00 * w + t10))) (i64 (u64 (t01 * w + t11))) f' (g' + w * f').
Proof.
  intros Hm Hms [Hs Hz Hf Hg Hzg R0 R1 Od FF GG D B0 B1] w. change (2 ^ 0) with 1 in B1. rewrite Z.mul_1_r in B1.
  assert (Of : Z.odd f = true) by (rewrite (odd_cong s f f') by (lia || assumption); exact Od).
  assert (Ew : w = u64 (g * Z.lxor (u64 (3 * f)) 28) mod 2 ^ m).
  { unfold w. rewrite Z.shiftl_mul_pow2, Z.mul_1_l by lia. replace (2 ^ m - 1) with (Z.ones m) by (rewrite Z.ones_equiv; lia). apply Z.land_ones. lia. }
  pose proof (Z.pow_pos_nonneg 2 m ltac:(lia) ltac:(lia)) as Pm.
  assert (Hw : 0 <= w < 2 ^ m) by (rewrite Ew; apply Z.mod_pos_bound; lia).
  assert (Dw : (2 ^ m | g + w * f)).
  { set (x := Z.lxor (u64 (3 * f)) 28) in *.
    assert (Hx : (x * f) mod 32 = 31) by (apply inv32_gen; [lia | reflexivity | exact Of]).
    assert (D1 : (2 ^ m | w - g * x)).
    { replace (w - g * x) with ((w - u64 (g * x)) + (u64 (g * x) - g * x)) by lia. apply Z.divide_add_r; [| apply u64_divs; lia].
      rewrite Ew. exists (- (u64 (g * x) / 2 ^ m)). pose proof (Z.div_mod (u64 (g * x)) (2 ^ m)). lia. }
    assert (D2 : (2 ^ m | x * f + 1)).
    { apply Z.divide_trans with 32; [apply (pow_divide m 5); lia |]. exists (x * f / 32 + 1). pose proof (Z.div_mod (x * f) 32). lia. }
    replace (g + w * f) with ((w - g * x) * f + g * (x * f + 1)) by ring.
    apply Z.divide_add_r; [apply Z.divide_mul_l | apply Z.divide_mul_r]; assumption. }
  assert (P62 : 2 ^ (62 - s) * 2 ^ m <= 2 ^ 62) by (rewrite <- Z.pow_add_r by lia; apply pow_le; lia).
  pose proof (Z.pow_pos_nonneg 2 (62 - s) ltac:(lia) ltac:(lia)) as Ps.
  assert (A1 : Z.abs (t00 * w + t10) + Z.abs (t01 * w + t11) <= 2 ^ (62 - s) * 2 ^ m).
  { pose proof (Z.abs_triangle (t00 * w) t10). pose proof (Z.abs_triangle (t01 * w) t11).
    rewrite !Z.abs_mul, (Z.abs_eq w) in * by lia.
    assert ((Z.abs t00 + Z.abs t01) * w <= 2 ^ (62 - s) * (2 ^ m - 1)).
    { apply Z.mul_le_mono_nonneg; [clear; lia | exact B0 | apply Hw | clear - Hw; lia]. }
    set (p := 2 ^ (62 - s)) in *. set (q := 2 ^ m) in *. clearbody p q. clear - H H0 H1 B1. lia. }
  clearbody w. pose proof (Z.abs_nonneg (t00 * w + t10)) as N0. pose proof (Z.abs_nonneg (t01 * w + t11)) as N1.
  rewrite (i64_u64 (t00 * w + t10)), (i64_u64 (t01 * w + t11)) by (clear - A1 P62 N0 N1; lia).
  pose proof (u64_range (g + w * f)) as Ug.
  constructor; try assumption.
  - clear - Hm Hms. lia.
  - replace (u64 (g + w * f)) with ((u64 (g + w * f) - (g + w * f)) + (g + w * f)) by lia.
    apply Z.divide_add_r; [apply u64_divs; lia | exact Dw].
  - replace (_ + _) with ((t00 * F + t01 * G) * w + (t10 * F + t11 * G)) by ring. rewrite R0, R1. ring.
  - replace (_ - _) with ((u64 (g + w * f) - (g + w * f)) + ((g - g') + w * (f - f'))) by ring.
    apply Z.divide_add_r; [apply u64_divs; lia |]. apply Z.divide_add_r; [exact GG |]. apply Z.divide_mul_r. exact FF.
  - rewrite <- D. ring.
Qed.
Lemma jump_loop_ok fuel : forall f g d s z t00 t01 t10 t11 f' g', inv f g s z t00 t01 t10 t11 f' g' -> Z.abs d + s < 2 ^ 62 ->
  s + 1 + (if z =? 0 then 1 else 0) <= Z.of_nat fuel ->
  exists r, jump_loop fuel f g d s (t00, t01, t10, t11) = Some r /\ final d s r.
Proof.
  induction fuel as [|fuel IH]; intros f g d s z t00 t01 t10 t11 f' g' I Hds Hfu.
  { destruct I as [Hs]. destruct (z =? 0); lia. }
  pose proof (i_s _ _ _ _ _ _ _ _ _ _ I) as Hs. pose proof (i_z _ _ _ _ _ _ _ _ _ _ I) as Hz.
  destruct (shift_step _ _ _ _ _ _ _ _ _ _ I) as (Hzz & g'' & I1 & Hodd).
  cbn [jump_loop]. set (zs := Z.min (ctz g) s) in *. assert (Hzs : zs <= s) by (unfold zs; lia). clearbody zs. clear I.
  rewrite (i64_small (d + zs)) by lia.
  set (a00 := i64 (Z.shiftl t00 zs)) in *. set (a01 := i64 (Z.shiftl t01 zs)) in *. set (g1 := Z.shiftr g zs) in *.
  clearbody a00 a01 g1. pose proof (i_s _ _ _ _ _ _ _ _ _ _ I1) as Hs1.
  destruct (Z.eqb_spec (s - zs) 0) as [E0 | E0].
  - eexists. split; [reflexivity |]. destruct I1. rewrite E0 in *. change (62 - 0) with 62 in *. change (2 ^ 0) with 1 in *.
    cbn [final]. split; [lia |]. split; [eexists; split; eassumption |]. split; [eexists; eassumption |]. lia.
  - assert (Hfu' : forall m, 1 <= m -> (s - zs) + 1 + (if m =? 0 then 1 else 0) <= Z.of_nat fuel).
    { intros m Hm. destruct (Z.eqb_spec m 0); [lia |]. destruct (Z.eqb_spec z 0); lia. }
    destruct (Z.ltb_spec 0 (d + zs)) as [Hd | Hd].
    + rewrite (i64_small (- (d + zs))), (i64_small (1 - - (d + zs))) by lia. apply swap_step in I1; [| lia | apply Hodd; lia].
      set (m := Z.min (Z.min (s - zs) (1 - - (d + zs))) 5).
      apply (add_step _ _ _ m) in I1; [| unfold m; lia | unfold m; lia].
      destruct (IH _ _ (- (d + zs)) _ _ _ _ _ _ _ _ I1) as ((d', [[[b00 b01] b10] b11]) & Er & Fr); [lia | apply Hfu'; unfold m; lia |].
      eexists. split; [exact Er |]. destruct Fr as (Fd & Fr). split; [lia | exact Fr].
    + rewrite (i64_small (1 - (d + zs))) by lia. set (m := Z.min (Z.min (s - zs) (1 - (d + zs))) 5).
      apply (add_step _ _ _ m) in I1; [| unfold m; lia | unfold m; lia].
      destruct (IH _ _ (d + zs) _ _ _ _ _ _ _ _ I1) as ((d', [[[b00 b01] b10] b11]) & Er & Fr); [lia | apply Hfu'; unfold m; lia |].
      eexists. split; [exact Er |]. destruct Fr as (Fd & Fr). split; [lia | exact Fr].
Qed.
Lemma jump_ok d : Z.odd F = true -> Z.abs d + 62 < 2 ^ 62 -> exists r, jump (F mod 2 ^ 62) (G mod 2 ^ 62) d = Some r /\ final d 62 r.
Proof.
  intros Of Hd. unfold jump. pose proof (mod62 F). pose proof (mod62 G).
  apply (jump_loop_ok 64 _ _ d 62 0 1 0 0 1 F G); [| exact Hd | cbn; lia].
  change (2 ^ (62 - 62)) with 1.
  constructor; change (2 ^ (62 - 62)) with 1; change (2 ^ 0) with 1; try lia.
  - apply Z.divide_1_l.
  - exact Of.
  - exists (- (F / 2 ^ 62)). pose proof (Z.div_mod F (2 ^ 62)). lia.
  - exists (- (G / 2 ^ 62)). pose proof (Z.div_mod G (2 ^ 62)). lia.
Qed.
End Jump.
