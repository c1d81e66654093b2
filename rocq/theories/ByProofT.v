(** Every round makes progress: a lexicographic measure of the pair and delta. *)
From Coq Require Import ZArith List Bool Lia.
From Verif Require Import ByModel BySpec ByProof ByProof2.
Import ListNotations.
Open Scope Z_scope.

Definition m1 (f g : Z) : Z := Z.max (Z.abs f) (Z.abs g).
Definition m2 (f g : Z) : Z := if (Z.abs f <? Z.abs g) || (f =? - g) then 1 else 0.
Definition m3 (d : Z) : Z := Z.max 0 (1 - d).
Definition lex (a b c e a' b' c' e' : Z) : Prop := a < a' \/ (a = a' /\ (b < b' \/ (b = b' /\ (c < c' \/ (c = c' /\ e < e'))))).
Definition below (f g d f0 g0 d0 : Z) : Prop := lex (m1 f g) (m2 f g) (m3 d) (Z.abs g) (m1 f0 g0) (m2 f0 g0) (m3 d0) (Z.abs g0).

Lemma lex_trans a b c e a' b' c' e' a'' b'' c'' e'' :
  lex a b c e a' b' c' e' -> lex a' b' c' e' a'' b'' c'' e'' -> lex a b c e a'' b'' c'' e''.
Proof. unfold lex. lia. Qed.
Lemma lex_ind (P : Z -> Z -> Z -> Z -> Prop) :
  (forall a b c e, 0 <= a -> 0 <= b -> 0 <= c -> 0 <= e ->
    (forall a' b' c' e', 0 <= a' -> 0 <= b' -> 0 <= c' -> 0 <= e' -> lex a' b' c' e' a b c e -> P a' b' c' e') -> P a b c e) ->
  forall a b c e, 0 <= a -> 0 <= b -> 0 <= c -> 0 <= e -> P a b c e.
Proof.
  intros H a b c e Ha. revert b c e. pattern a. apply Zlt_0_ind; [| exact Ha]. clear a Ha. intros a IHa Ha b c e Hb. revert c e.
  pattern b. apply Zlt_0_ind; [| exact Hb]. clear b Hb. intros b IHb Hb c e Hc. revert e.
  pattern c. apply Zlt_0_ind; [| exact Hc]. clear c Hc. intros c IHc Hc e He.
  pattern e. apply Zlt_0_ind; [| exact He]. clear e He. intros e IHe He.
  apply H; try assumption. intros a' b' c' e' Ha' Hb' Hc' He' [L | (-> & [L | (-> & [L | (-> & L)])])].
  - apply IHa; lia.
  - apply IHb; lia.
  - apply IHc; lia.
  - apply IHe; lia.
Qed.

Lemma shrink zs m w x y q : 1 <= m <= zs -> 0 <= w < 2 ^ m -> x + w * y = q * 2 ^ zs -> 
  2 ^ m * Z.abs q <= Z.abs x + (2 ^ m - 1) * Z.abs y.
Proof.
  intros Hm Hw E. assert (Ea : Z.abs q * 2 ^ zs = Z.abs (x + w * y)).
  { rewrite E, Z.abs_mul, (Z.abs_eq (2 ^ zs)); [reflexivity | apply Z.pow_nonneg; lia]. }
  pose proof (Z.abs_triangle x (w * y)) as T. rewrite Z.abs_mul, (Z.abs_eq w) in T by lia.
  assert (2 ^ m <= 2 ^ zs) by (apply pow_le; lia).
  assert (2 ^ m * Z.abs q <= Z.abs q * 2 ^ zs) by (rewrite Z.mul_comm; apply Z.mul_le_mono_nonneg_l; lia).
  assert (w * Z.abs y <= (2 ^ m - 1) * Z.abs y) by (apply Z.mul_le_mono_nonneg_r; lia). lia.
Qed.
(* what follows from the bound *)
Lemma shrink_lt p q x y : 2 <= p -> p * Z.abs q <= Z.abs x + (p - 1) * Z.abs y ->
  (Z.abs x < Z.abs y -> Z.abs q < Z.abs y) /\ (Z.abs y < Z.abs x -> Z.abs q < Z.abs x) /\ (Z.abs x = Z.abs y -> Z.abs q <= Z.abs y).
Proof. intros Hp H. repeat split; intros; nia. Qed.
Lemma same_sign zs w x q : 0 <= w -> 0 <= zs -> x <> 0 -> (1 + w) * x = q * 2 ^ zs -> Z.abs q = Z.abs x -> q = x.
Proof.
  intros Hw Hz Hx E A. pose proof (Z.pow_pos_nonneg 2 zs ltac:(lia) Hz). assert (O : q = x \/ q = - x) by lia. destruct O as [O | ->]; [exact O | nia].
Qed.

Lemma pow2_ge2 m : 1 <= m -> 2 <= 2 ^ m.
Proof. intros. change 2 with (2 ^ 1) at 1. apply pow_le. lia. Qed.
Lemma dec_shift f g d zs q : Z.odd f = true -> g <> 0 -> 1 <= zs -> g = q * 2 ^ zs -> below f q (d + zs) f g d.
Proof.
  intros Of Hg Hz E. pose proof (pow2_ge2 zs Hz) as P.
  assert (Lq : Z.abs q < Z.abs g) by (rewrite E, Z.abs_mul, (Z.abs_eq (2 ^ zs)) by lia; assert (q <> 0) by (intros ->; lia); nia).
  assert (Ne : Z.abs f <> Z.abs g).
  { intros A. apply (odd_div2 f Of). assert (D2 : (2 | g)).
    { rewrite E. apply Z.divide_mul_r. apply (pow_divide 1). lia. }
    apply Z.divide_abs_r. rewrite A. apply Z.divide_abs_r. exact D2. }
  unfold below, lex, m1, m2, m3.
  destruct (Z.ltb_spec (Z.abs f) (Z.abs q)), (Z.eqb_spec f (- q)), (Z.ltb_spec (Z.abs f) (Z.abs g)), (Z.eqb_spec f (- g)); cbn [orb]; clear E P; lia.
Qed.
Lemma dec_add f g d m w zs q : g <> 0 -> f <> 0 -> d <= 0 -> 1 <= m <= zs -> 0 <= w < 2 ^ m -> g + w * f = q * 2 ^ zs ->
  below f q (d + zs) f g d.
Proof.
  intros Hg Hf Hd Hm Hw E. pose proof (pow2_ge2 m ltac:(lia)) as P. pose proof (shrink zs m w g f q Hm Hw E) as S.
  destruct (shrink_lt _ _ _ _ P S) as (S1 & S2 & S3).
  assert (Eg : f = g -> Z.abs q = Z.abs g -> q = g).
  { intros -> A. apply (same_sign zs w g q); try lia. }
  assert (Em : f = - g -> Z.abs q < Z.abs g).
  { intros ->. assert (Ea : Z.abs q * 2 ^ zs = Z.abs (1 - w) * Z.abs g).
    { rewrite <- Z.abs_mul. replace ((1 - w) * g) with (g + w * - g) by ring. rewrite E, Z.abs_mul, (Z.abs_eq (2 ^ zs)); [reflexivity | apply Z.pow_nonneg; lia]. }
    assert (2 ^ m <= 2 ^ zs) by (apply pow_le; lia). assert (Z.abs (1 - w) < 2 ^ zs) by lia.
    clear - Ea H0 Hg. set (p := 2 ^ zs) in *. clearbody p. nia. }
  clear E S P Hw. unfold below, lex, m1, m2, m3.
  destruct (Z.ltb_spec (Z.abs f) (Z.abs q)), (Z.eqb_spec f (- q)), (Z.ltb_spec (Z.abs f) (Z.abs g)), (Z.eqb_spec f (- g)); cbn [orb]; lia.
Qed.
Lemma dec_swap f g d m w zs q : Z.odd g = true -> f <> 0 -> 0 < d -> 1 <= m <= zs -> 0 <= w < 2 ^ m -> - f + w * g = q * 2 ^ zs ->
  q = 0 \/ below g q (- d + zs) f g d.
Proof.
  intros Og Hf Hd Hm Hw E. assert (Hg : g <> 0) by (intros ->; discriminate).
  pose proof (pow2_ge2 m ltac:(lia)) as P. pose proof (shrink zs m w (- f) g q Hm Hw E) as S. rewrite Z.abs_opp in S.
  destruct (shrink_lt _ _ _ _ P S) as (S1 & S2 & S3).
  assert (Ep : f = g -> q = 0).
  { intros ->. assert (D : (2 ^ m | g * (w - 1))).
    { replace (g * (w - 1)) with (- g + w * g) by ring. rewrite E. apply Z.divide_mul_r. apply pow_divide. lia. }
    assert (C : Z.gcd (2 ^ m) g = 1).
    { rewrite Z.gcd_comm. apply Znumtheory.Zgcd_1_rel_prime. apply Znumtheory.rel_prime_sym.
      clear - Og Hm. assert (0 <= m) as H by lia. clear Hm. pattern m. apply natlike_ind; [apply Znumtheory.rel_prime_1 | | exact H].
      intros x Hx IH. rewrite Z.pow_succ_r by exact Hx. apply Znumtheory.rel_prime_sym. apply Znumtheory.rel_prime_mult; apply Znumtheory.rel_prime_sym; [| exact IH].
      apply Znumtheory.prime_rel_prime; [exact Znumtheory.prime_2 |]. intros D. exact (odd_div2 g Og D). }
    apply Z.gauss in D; [| exact C].
    assert (w = 1).
    { destruct D as [k D]. assert (k = 0) by nia. lia. }
    subst w. replace (- g + 1 * g) with 0 in E by ring. symmetry in E. apply Z.mul_eq_0 in E. destruct E as [E | E]; [exact E |].
    pose proof (Z.pow_pos_nonneg 2 zs). lia. }
  destruct (Z.eq_dec f g) as [Efg | Nfg]; [left; exact (Ep Efg) | right].
  assert (Em : f = - g -> Z.abs q = Z.abs g -> q = g).
  { intros -> A. apply (same_sign zs w g q); try lia. }
  clear E S P Hw Ep. unfold below, lex, m1, m2, m3.
  destruct (Z.ltb_spec (Z.abs g) (Z.abs q)), (Z.eqb_spec g (- q)), (Z.ltb_spec (Z.abs f) (Z.abs g)), (Z.eqb_spec f (- g)); cbn [orb]; lia.
Qed.

(** ** delta stays small. *)
Section Lim.
Variables B C : Z.
Hypothesis HC : 0 <= C.
Hypothesis HBC : 2 * B < 2 ^ (C + 1).
Definition lim (f g d : Z) : Prop := Z.abs f <= B /\ Z.abs g <= B /\ Z.abs g * 2 ^ Z.max 0 d <= 2 * B /\ - C <= d.
Lemma lim_delta f g d : g <> 0 -> lim f g d -> Z.abs d <= C.
Proof.
  intros Hg (_ & _ & H & L). destruct (Z.le_gt_cases d 0); [lia |]. rewrite Z.max_r in H by lia.
  assert (P : 2 ^ d < 2 ^ (C + 1)).
  { pose proof (Z.pow_pos_nonneg 2 d ltac:(lia) ltac:(lia)). nia. }
  apply Z.pow_lt_mono_r_iff in P; lia.
Qed.
Lemma lim_shift f g d zs q : 0 <= zs -> g = q * 2 ^ zs -> lim f g d -> lim f q (d + zs).
Proof.
  intros Hz E (H1 & H2 & H3 & H4). pose proof (Z.pow_pos_nonneg 2 zs ltac:(lia) Hz) as P.
  assert (Ea : Z.abs g = Z.abs q * 2 ^ zs) by (rewrite E, Z.abs_mul, (Z.abs_eq (2 ^ zs)) by lia; reflexivity).
  assert (Lq : Z.abs q <= Z.abs g) by (rewrite Ea; nia).
  split; [exact H1 |]. split; [lia |]. split; [| lia]. destruct (Z.le_gt_cases (d + zs) 0).
  - rewrite Z.max_l by lia. change (2 ^ 0) with 1. lia.
  - rewrite Z.max_r by lia. destruct (Z.le_gt_cases 0 d).
    + rewrite Z.max_r, Ea in H3 by lia. rewrite Z.pow_add_r by lia. lia.
    + assert (2 ^ (d + zs) <= 2 ^ zs) by (apply pow_le; lia). nia.
Qed.
Lemma lim_add f g d m w zs q : d <= 0 -> 1 <= m <= zs -> m <= 1 - d -> 0 <= w < 2 ^ m -> g + w * f = q * 2 ^ zs -> lim f g d ->
  lim f q (d + zs).
Proof.
  intros Hd Hm Hmd Hw E (H1 & H2 & _ & H4).
  pose proof (Z.pow_pos_nonneg 2 zs ltac:(lia) ltac:(lia)) as P. pose proof (Z.pow_pos_nonneg 2 m ltac:(lia) ltac:(lia)) as Pm.
  assert (Ea : Z.abs q * 2 ^ zs <= 2 ^ m * B).
  { rewrite <- (Z.abs_eq (2 ^ zs)), <- Z.abs_mul, <- E by lia.
    pose proof (Z.abs_triangle g (w * f)) as T. rewrite Z.abs_mul, (Z.abs_eq w) in T by lia.
    assert (w * Z.abs f <= (2 ^ m - 1) * B) by (apply Z.mul_le_mono_nonneg; lia). lia. }
  assert (Lq : Z.abs q <= B).
  { assert (2 ^ m <= 2 ^ zs) by (apply pow_le; lia). assert (Z.abs q * 2 ^ m <= B * 2 ^ m) by nia. nia. }
  split; [exact H1 |]. split; [exact Lq |]. split; [| lia]. destruct (Z.le_gt_cases (d + zs) 0).
  - rewrite Z.max_l by lia. change (2 ^ 0) with 1. lia.
  - rewrite Z.max_r by lia. pose proof (Z.pow_pos_nonneg 2 (- d) ltac:(lia) ltac:(lia)) as Pd.
    apply (Z.mul_le_mono_pos_r _ _ (2 ^ (- d))); [exact Pd |].
    replace (Z.abs q * 2 ^ (d + zs) * 2 ^ (- d)) with (Z.abs q * 2 ^ zs)
      by (rewrite <- Z.mul_assoc, <- Z.pow_add_r by lia; do 2 f_equal; lia).
    assert (2 ^ m <= 2 ^ (1 - d)) by (apply pow_le; lia).
    replace (2 ^ (1 - d)) with (2 * 2 ^ (- d)) in H0 by (rewrite <- Z.pow_succ_r by lia; f_equal; lia).
    assert (2 ^ m * B <= 2 * 2 ^ (- d) * B) by (apply Z.mul_le_mono_nonneg_r; lia). lia.
Qed.
Lemma lim_swap f g d m w zs q : g <> 0 -> 0 < d -> 1 <= m <= zs -> m <= 1 + d -> 0 <= w < 2 ^ m -> - f + w * g = q * 2 ^ zs ->
  lim f g d -> lim g q (- d + zs).
Proof.
  intros Hg Hd Hm Hmd Hw E L. pose proof (lim_delta f g d Hg L) as Hc. destruct L as (H1 & H2 & _ & _).
  apply (lim_add g (- f) (- d) m w zs q); try assumption; try lia.
  unfold lim. rewrite Z.abs_opp, Z.max_l by lia. change (2 ^ 0) with 1. lia.
Qed.
End Lim.
