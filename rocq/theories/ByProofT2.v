(** A round of 62 steps decreases the measure, or ends with g = 0. *)
From Coq Require Import ZArith List Bool Lia.
From Verif Require Import ByModel BySpec ByProof ByProof2 ByProofT.
Import ListNotations.
Open Scope Z_scope.

Section JumpT.
Variables B C F G d0 : Z.
Hypothesis HC : 0 <= C.
Hypothesis HBC : 2 * B < 2 ^ (C + 1).
Definition prog (f g d : Z) : Prop := (g = 0 \/ below f g d F G d0) /\ lim B C f g d.
(* the state before the shift by at least z *)
Definition pend (s z f g d : Z) : Prop := forall zs q, z <= zs -> 0 <= zs -> g = q * 2 ^ zs ->
  prog f q (d + zs) \/ (zs = 0 /\ s = 62 /\ f = F /\ q = G /\ d = d0 /\ lim B C f q d).
Definition ends (r : Z * mat) : Prop :=
  let '(d', (t00, t01, t10, t11)) := r in
  forall f' g', t00 * F + t01 * G = 2 ^ 62 * f' -> t10 * F + t11 * G = 2 ^ 62 * g' -> prog f' g' d'.

Lemma cancel62 a b : 2 ^ 62 * a = 2 ^ 62 * b -> a = b.
Proof. lia. Qed.
Lemma odd_nz z : Z.odd z = true -> z <> 0.
Proof. intros H ->. discriminate. Qed.
Lemma prog_trans f g d f1 g1 d1 : g <> 0 -> prog f g d -> g1 = 0 \/ below f1 g1 d1 f g d -> lim B C f1 g1 d1 -> prog f1 g1 d1.
Proof.
  intros Hg [[H | H] _] [K | K] L; try contradiction; (split; [| exact L]); [left; exact K |]. right. unfold below in *. eapply lex_trans; eassumption.
Qed.
Lemma jump_loop_dec fuel : forall f g d s z t00 t01 t10 t11 f' g' r, inv F G f g s z t00 t01 t10 t11 f' g' ->
  pend s z f' g' d -> Z.abs d + s < 2 ^ 62 -> jump_loop fuel f g d s (t00, t01, t10, t11) = Some r -> ends r.
Proof.
  induction fuel as [|fuel IH]; intros f g d s z t00 t01 t10 t11 f' g' r I Pe Hds Er; [discriminate |].
  pose proof (i_s _ _ _ _ _ _ _ _ _ _ _ _ I) as Hs. pose proof (i_z _ _ _ _ _ _ _ _ _ _ _ _ I) as Hz.
  pose proof (i_r1 _ _ _ _ _ _ _ _ _ _ _ _ I) as R1.
  destruct (shift_step F G _ _ _ _ _ _ _ _ _ _ I) as (Hzz & g'' & I1 & Hodd).
  cbn [jump_loop] in Er. set (zs := Z.min (ctz g) s) in *. assert (Hzs : zs <= s) by (unfold zs; lia). clearbody zs. clear I.
  rewrite (i64_small (d + zs)) in Er by lia.
  set (a00 := i64 (Z.shiftl t00 zs)) in *. set (a01 := i64 (Z.shiftl t01 zs)) in *. set (g1 := Z.shiftr g zs) in *.
  clearbody a00 a01 g1. pose proof (i_s _ _ _ _ _ _ _ _ _ _ _ _ I1) as Hs1.
  assert (Eg : g' = g'' * 2 ^ zs).
  { pose proof (i_r1 _ _ _ _ _ _ _ _ _ _ _ _ I1) as R1'. rewrite R1 in R1'.
    replace (62 - (s - zs)) with ((62 - s) + zs) in R1' by lia. rewrite Z.pow_add_r in R1' by lia.
    pose proof (Z.pow_pos_nonneg 2 (62 - s) ltac:(lia) ltac:(lia)).
    apply (Z.mul_reg_l _ _ (2 ^ (62 - s))); [lia |]. rewrite R1'. ring. }
  pose proof (Pe zs g'' Hzz ltac:(lia) Eg) as Pr. clear Pe.
  destruct (Z.eqb_spec (s - zs) 0) as [E0 | E0].
  - injection Er as <-. cbn [ends]. intros fa ga Ea Eb. destruct I1. rewrite E0 in *. change (62 - 0) with 62 in *.
    rewrite i_r0 in Ea. rewrite i_r1 in Eb. apply cancel62 in Ea, Eb. subst fa ga.
    destruct Pr as [Pr | (P1 & P2 & _)]; [exact Pr | lia].
  - assert (Og1 : Z.odd g1 = true) by (apply Hodd; lia).
    assert (Og : Z.odd g'' = true).
    { rewrite <- (odd_cong (s - zs) g1 g''); [exact Og1 | lia | apply (i_gg _ _ _ _ _ _ _ _ _ _ _ _ I1)]. }
    assert (Of : Z.odd f' = true) by apply (i_o _ _ _ _ _ _ _ _ _ _ _ _ I1).
    assert (Lm : lim B C f' g'' (d + zs)).
    { destruct Pr as [[_ Pr] | (-> & _ & _ & _ & _ & Pr)]; [exact Pr |]. rewrite Z.add_0_r. exact Pr. }
    assert (Tr : forall fa ga da, ga = 0 \/ below fa ga da f' g'' (d + zs) -> lim B C fa ga da -> prog fa ga da).
    { intros fa ga da H L. destruct Pr as [Pr | (-> & _ & -> & -> & -> & _)]; [apply (prog_trans f' g'' (d + zs)); [apply odd_nz; exact Og | exact Pr | exact H | exact L] |].
      rewrite Z.add_0_r in H. split; [exact H | exact L]. }
    destruct (Z.ltb_spec 0 (d + zs)) as [Hd | Hd].
    + rewrite (i64_small (- (d + zs))), (i64_small (1 - - (d + zs))) in Er by lia. apply swap_step in I1; [| lia | exact Og1].
      set (m := Z.min (Z.min (s - zs) (1 - - (d + zs))) 5) in *.
      apply (add_step F G _ _ _ m) in I1; [| unfold m; lia | unfold m; lia].
      refine (IH _ _ _ _ m _ _ _ _ _ _ _ I1 _ _ Er); [| lia].
      match goal with |- context [Z.land ?u ?v] => set (w := Z.land u v) end.
      assert (Hw : 0 <= w < 2 ^ m).
      { unfold w. rewrite Z.shiftl_mul_pow2, Z.mul_1_l by (unfold m; lia).
        replace (2 ^ m - 1) with (Z.ones m) by (rewrite Z.ones_equiv; lia). rewrite Z.land_ones by (unfold m; lia). apply Z.mod_pos_bound. apply Z.pow_pos_nonneg; unfold m; lia. }
      intros zs' q Hz' _ Eq. left. apply Tr; [|
        apply (lim_swap B C HC HBC f' g'' (d + zs) m w zs' q); [apply odd_nz; exact Og | exact Hd | unfold m in *; lia | unfold m; lia | exact Hw | exact Eq | exact Lm]].
      apply (dec_swap f' g'' (d + zs) m w zs' q); [exact Og | apply odd_nz; exact Of | exact Hd | unfold m in *; lia | exact Hw | exact Eq].
    + rewrite (i64_small (1 - (d + zs))) in Er by lia. set (m := Z.min (Z.min (s - zs) (1 - (d + zs))) 5) in *.
      apply (add_step F G _ _ _ m) in I1; [| unfold m; lia | unfold m; lia].
      refine (IH _ _ _ _ m _ _ _ _ _ _ _ I1 _ _ Er); [| lia].
      match goal with |- context [Z.land ?u ?v] => set (w := Z.land u v) end.
      assert (Hw : 0 <= w < 2 ^ m).
      { unfold w. rewrite Z.shiftl_mul_pow2, Z.mul_1_l by (unfold m; lia).
        replace (2 ^ m - 1) with (Z.ones m) by (rewrite Z.ones_equiv; lia). rewrite Z.land_ones by (unfold m; lia). apply Z.mod_pos_bound. apply Z.pow_pos_nonneg; unfold m; lia. }
      intros zs' q Hz' _ Eq. left. apply Tr; [right |
        apply (lim_add B C HC HBC f' g'' (d + zs) m w zs' q); [exact Hd | unfold m in *; lia | unfold m; lia | exact Hw | exact Eq | exact Lm]].
      apply (dec_add f' g'' (d + zs) m w zs' q); [apply odd_nz; exact Og | apply odd_nz; exact Of | exact Hd | unfold m in *; lia | exact Hw | exact Eq].
Qed.
Lemma jump_unfold f g d : jump f g d = jump_loop 64 f g d 62 (1, 0, 0, 1).
Proof. reflexivity. Qed.
Lemma jump_dec r : Z.odd F = true -> G <> 0 -> lim B C F G d0 -> C + 62 < 2 ^ 62 -> jump (F mod 2 ^ 62) (G mod 2 ^ 62) d0 = Some r -> ends r.
Proof.
  intros Of HG Li HCs Er. rewrite jump_unfold in Er. pose proof (mod62 F). pose proof (mod62 G).
  apply (jump_loop_dec 64 (F mod 2 ^ 62) (G mod 2 ^ 62) d0 62 0 1 0 0 1 F G); [| | pose proof (lim_delta B C HC HBC F G d0 HG Li); lia | exact Er].
  - constructor; change (2 ^ (62 - 62)) with 1; change (2 ^ 0) with 1; try lia.
    + apply Z.divide_1_l.
    + exact Of.
    + exists (- (F / 2 ^ 62)). pose proof (Z.div_mod F (2 ^ 62)). lia.
    + exists (- (G / 2 ^ 62)). pose proof (Z.div_mod G (2 ^ 62)). lia.
  - intros zs q _ Hzs Eq. destruct (Z.eq_dec zs 0) as [-> | Hn].
    + right. change (2 ^ 0) with 1 in Eq. rewrite Z.mul_1_r in Eq. subst q. repeat (split; [reflexivity |]). exact Li.
    + left. split; [right; apply dec_shift; [exact Of | exact HG | lia | exact Eq] | apply (lim_shift B C HC HBC F G); assumption].
Qed.
End JumpT.
