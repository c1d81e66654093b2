(** FRI, one input: a vector that is not of low degree survives only through one challenge of one layer. *)
From Coq Require Import ZArith List Bool Lia Arith Ring Field Field_theory.
From Verif Require Import Field BitsModel BitsSpec PolySpec PolyProof PolyProof3 FFTModel FFTSpec FFTProof FFTProof5 BatchSpec BatchExtra FriModel FriSpec FriProof FriProof2.
Import ListNotations.
Open Scope nat_scope.

Section Sound.
  Variable K : fld.
  Add Field Kfri5 : (fld_theory K).
  Open Scope fld_scope.
  Variables (adicity : nat) (root : K) (threads : Z) (lb : nat).
  Hypothesis Had : (adicity < 62)%nat.
  Hypothesis Hroot : primitive_root root (2 ^ adicity).
  Hypothesis H2 : (1 + 1 : K) <> 0.
  Hypothesis Ht : (0 < threads < 2 ^ 63)%Z.
  Notation low := (low_degree adicity root lb).
  Notation gen := (generator adicity root).
  Notation evals := (evaluations_of adicity root).

  Lemma fold_coeff beta : forall n (c : list K) j, (length c <= n)%nat -> coeff (fold_poly beta c) j = coeff c (2 * j) + beta * coeff c (2 * j + 1).
  Proof using Type. clear Had Hroot H2 Ht.
    induction n as [|n IH]; intros c j Hc.
    - destruct c; [|cbn in Hc; lia]. unfold coeff. cbn [fold_poly]. destruct j; cbn; try ring.
    - destruct c as [|a [|b r]].
      + unfold coeff. cbn [fold_poly]. destruct j; [cbn; ring|]. replace (2 * S j)%nat with (S (S (2 * j))) by lia. replace (S (S (2 * j)) + 1)%nat with (S (S (2 * j + 1))) by lia. cbn [nth]. ring.
      + unfold coeff. cbn [fold_poly]. destruct j; [cbn; ring|]. replace (2 * S j)%nat with (S (S (2 * j))) by lia. replace (S (S (2 * j)) + 1)%nat with (S (S (2 * j + 1))) by lia. cbn [nth].
        destruct j as [|j]; cbn; ring.
      + cbn [fold_poly]. destruct j as [|j]; [unfold coeff; cbn; ring|]. replace (2 * S j)%nat with (S (S (2 * j))) by lia. replace (S (S (2 * j)) + 1)%nat with (S (S (2 * j + 1))) by lia.
        unfold coeff in *. cbn [nth]. apply IH. cbn in Hc. lia.
  Qed.
  Lemma coeffs_unique k v a b : (k <= adicity)%nat -> evals a k v -> evals b k v -> (length a <= 2 ^ k)%nat -> (length b <= 2 ^ k)%nat -> forall i, coeff a i = coeff b i.
  Proof using Had Hroot.
    clear Ht H2. intros Hk [_ Ea] [_ Eb] La Lb. set (d := map (fun i => coeff a i - coeff b i) (seq 0 (2 ^ k))).
    assert (Hd : forall i, coeff d i = coeff a i - coeff b i).
    { intros j. unfold d. rewrite coeff_map_seq. destruct (Nat.ltb_spec j (2 ^ k)); [reflexivity|]. rewrite !coeff_over by lia. ring. }
    intros i. apply fsub_eq0. rewrite <- Hd. apply (roots_bound K (map (fun i => 1 * gen k ^ i) (seq 0 (2 ^ k)))).
    - apply points_nodup; [apply gen_primitive; [lia|exact Hroot|exact Hk]|apply f1_neq_0].
    - unfold d. rewrite !map_length, !seq_length. lia.
    - intros x Hx. apply in_map_iff in Hx. destruct Hx as (j & <- & Hj). apply in_seq in Hj. rewrite (eval_linear K a b d 1 (- (1))) by (intros i'; rewrite Hd; ring).
      specialize (Ea (brev k j) (brev_lt k j)). specialize (Eb (brev k j) (brev_lt k j)). rewrite brev_rev, brev_invol in Ea, Eb by lia. replace (1 * gen k ^ j) with (gen k ^ j) by ring. rewrite <- Ea, <- Eb. ring.
  Qed.
  Lemma low_coeffs k v c : (lb <= k)%nat -> (k <= adicity)%nat -> evals c k v -> (length c <= 2 ^ k)%nat -> low k v <-> forall j, (2 ^ (k - lb) <= j)%nat -> coeff c j = 0.
  Proof using Had Hroot.
    clear Ht H2. intros Hl Hk E Lc. assert (P : (2 ^ (k - lb) <= 2 ^ k)%nat) by (apply Nat.pow_le_mono_r; lia). split.
    - intros (_ & a & La & Ea) j Hj. rewrite (coeffs_unique k v c a Hk E Ea Lc ltac:(lia)). apply coeff_over. lia.
    - intros H. split; [exact Hl|]. exists (map (coeff c) (seq 0 (2 ^ (k - lb)))). split; [rewrite map_length, seq_length; lia|]. destruct E as [E1 E]. split; [exact E1|].
      intros r Hr. rewrite E by exact Hr. rewrite (eval_linear K (map (coeff c) (seq 0 (2 ^ (k - lb)))) [] c 1 0); [rewrite eval_nil; ring|].
      intros i. rewrite coeff_map_seq. destruct (Nat.ltb_spec i (2 ^ (k - lb))); [ring|]. rewrite H by lia. ring.
  Qed.
  Lemma interpolate_vector k (v : list K) : (0 < k <= adicity)%nat -> length v = (2 ^ k)%nat -> exists c, (length c <= 2 ^ k)%nat /\ evals c k v.
  Proof using Had Hroot.
    clear Ht H2. intros Hk Hv. destruct (column_polys_exist K adicity root k 1 (map (fun i => [nth (brev k i) v 0]) (seq 0 (2 ^ k))) Had Hroot Hk) as (P & HP).
    { split; [rewrite map_length, seq_length; reflexivity|]. apply Forall_forall. intros r Hr. apply in_map_iff in Hr. destruct Hr as (i & <- & _). reflexivity. }
    destruct (HP 0%nat ltac:(lia)) as [L E]. exists (P 0%nat). split; [exact L|]. split; [exact Hv|]. intros r Hr. rewrite brev_rev.
    rewrite E by apply brev_lt. unfold entry. set (M := map _ _).
    assert (N : nth (brev k r) M [] = [nth (brev k (brev k r)) v 0]).
    { apply nth_error_nth. unfold M. rewrite nth_error_map, (nth_error_nth' _ 0%nat) by (rewrite seq_length; apply brev_lt). rewrite seq_nth by apply brev_lt. reflexivity. }
    rewrite N. cbn [nth]. rewrite brev_invol by exact Hr. reflexivity.
  Qed.

  (** Low-degree foldings under two challenges: low degree. *)
  Lemma two_challenges k v m b1 b2 f1 f2 : (0 < lb)%nat -> (lb <= k)%nat -> (S k <= adicity)%nat -> length v = (2 ^ S k)%nat -> leaves v = Some m ->
    fold_matrix adicity root threads b1 m = Some f1 -> fold_matrix adicity root threads b2 m = Some f2 -> low k f1 -> low k f2 -> b1 <> b2 -> low (S k) v.
  Proof using Had Hroot H2 Ht.
    intros Hlb Hl Hk Hv Hm F1 F2 L1 L2 Hb. destruct (interpolate_vector (S k) v ltac:(lia) Hv) as (c & Lc & Ec).
    assert (G : forall b f, fold_matrix adicity root threads b m = Some f -> low k f -> forall j, (2 ^ (k - lb) <= j)%nat -> coeff c (2 * j) + b * coeff c (2 * j + 1) = 0).
    { intros b f F L j Hj. destruct (fold_evaluations K adicity root ltac:(lia) Hroot H2 threads b k c v Ht ltac:(lia) Hk Ec) as (m' & f' & M & _ & _ & _ & F' & E').
      rewrite Hm in M. injection M as <-. rewrite F in F'. injection F' as <-. rewrite <- (fold_coeff b (length c)) by lia.
      apply (proj1 (low_coeffs k f (fold_poly b c) Hl ltac:(lia) E' ltac:(pose proof (fold_poly_length K adicity ltac:(lia) b (length c) c (le_n _)); cbn [Nat.pow] in Lc; lia)) L j Hj). }
    apply (low_coeffs (S k) v c ltac:(lia) Hk Ec Lc). intros j Hj. replace (S k - lb)%nat with (S (k - lb)) in Hj by lia. cbn [Nat.pow] in Hj.
    pose proof (G b1 f1 F1 L1 (Nat.div j 2) ltac:(apply Nat.div_le_lower_bound; lia)) as G1. pose proof (G b2 f2 F2 L2 (Nat.div j 2) ltac:(apply Nat.div_le_lower_bound; lia)) as G2.
    set (e := coeff c (2 * Nat.div j 2)) in *. set (o := coeff c (2 * Nat.div j 2 + 1)) in *.
    assert (O : o = 0). { assert (Z : (b1 - b2) * o = 0) by (transitivity ((e + b1 * o) - (e + b2 * o)); [ring|rewrite G1, G2; ring]). apply fmul_integral in Z. destruct Z as [Z|Z]; [|exact Z]. exfalso. apply Hb, fsub_eq0, Z. }
    assert (E0 : e = 0) by (transitivity (e + b1 * o); [rewrite O; ring|exact G1]).
    pose proof (Nat.div2_odd j) as D. rewrite Nat.div2_div in D. destruct (Nat.odd j); cbn [Nat.b2n] in D; rewrite D; [exact O|]. rewrite Nat.add_0_r. exact E0.
  Qed.

  (** A layer is caught out by its challenge only: its rows [m] fold to low degree under [beta], under no other challenge. *)
  Definition lucky (k : nat) (m : list (list K)) (beta : K) : Prop :=
    forall b, (exists g, fold_matrix adicity root threads b m = Some g /\ low k g) <-> b = beta.

  Lemma folding_sound ins final : (0 < lb)%nat -> forall betas mats k g, k = (lb + length betas)%nat -> (k <= adicity)%nat -> length g = (2 ^ k)%nat ->
    (forall h, (length h <= 2 ^ k)%nat -> add_inputs h ins = h) -> honest_folding adicity root threads ins final k g betas mats ->
    low k g \/ exists i m beta, nth_error mats i = Some m /\ nth_error betas i = Some beta /\ lucky (k - S i) m beta.
  Proof using Had Hroot H2 Ht.
    intros Hlb. induction betas as [|beta betas IH]; intros [|m mats] k g Ek Hk Hg HI HF; cbn [honest_folding] in HF; try contradiction.
    - left. cbn [length] in Ek. rewrite Nat.add_0_r in Ek. subst k. split; [lia|]. exists [final]. split; [rewrite Nat.sub_diag; cbn; lia|]. split; [exact Hg|].
      intros r Hr. rewrite (nth_error_nth _ _ _ (HF r Hr)), eval_cons, eval_nil. ring.
    - destruct HF as (k' & f' & -> & Hm & Hf & HF). cbn [length] in Ek. assert (k' = (lb + length betas)%nat) by lia.
      rewrite HI in Hm by lia. assert (Lm : length m = (2 ^ k')%nat /\ Forall (fun row => length row = 2%nat) m).
      { rewrite (leaves_spec K (2 ^ k') g) in Hm by (cbn [Nat.pow] in Hg; lia). injection Hm as <-. split; [rewrite map_length, seq_length; reflexivity|].
        apply Forall_forall. intros r Hr. apply in_map_iff in Hr. destruct Hr as (i & <- & _). reflexivity. }
      destruct (fold_matrix_rows K adicity root ltac:(lia) Hroot threads beta k' m Ht ltac:(lia) Hk (proj1 Lm) (proj2 Lm)) as (f2 & F2 & Lf & _).
      rewrite Hf in F2. injection F2 as <-. assert (P : (2 ^ k' <= 2 ^ S k')%nat) by (apply Nat.pow_le_mono_r; lia).
      destruct (IH mats k' f' ltac:(lia) ltac:(lia) Lf ltac:(intros h Hh; apply HI; lia) HF) as [L|(i & m' & b & E1 & E2 & E3)].
      + destruct (interpolate_vector (S k') g ltac:(lia) Hg) as (c & Lc & Ec).
        assert (Dec : low (S k') g \/ ~ low (S k') g).
        { rewrite (low_coeffs (S k') g c ltac:(lia) Hk Ec Lc). clear - Lc. set (B := (2 ^ (S k' - lb))%nat).
          assert (D : forall n, (forall j, (B <= j < n)%nat -> coeff c j = 0) \/ ~ (forall j, (B <= j < n)%nat -> coeff c j = 0)).
          { induction n as [|n [IH|IH]]; [left; intros; lia| |right; intros H; apply IH; intros; apply H; lia].
            destruct (f_dec K (coeff c n) 0) as [E|E]; [left|destruct (Nat.le_gt_cases B n)].
            - intros j Hj. destruct (Nat.eq_dec j n) as [->|]; [exact E|apply IH; lia].
            - right. intros H'. apply E, H'. lia.
            - left. intros; lia. }
          destruct (D (length c)) as [H|H]; [left|right; intros H'; apply H; intros; apply H'; lia].
          intros j Hj. destruct (Nat.lt_ge_cases j (length c)); [apply H; lia|apply coeff_over; lia]. }
        destruct Dec as [D|D]; [left; exact D|]. right. exists 0%nat, m, beta. split; [reflexivity|]. split; [reflexivity|]. replace (S k' - 1)%nat with k' by lia.
        intros b. split; [|intros ->; exists f'; auto]. intros (f2 & F2 & L2). destruct (f_dec K b beta) as [E|E]; [exact E|]. exfalso. apply D.
        apply (two_challenges k' g m b beta f2 f'); auto; lia.
      + right. exists (S i), m', b. split; [exact E1|]. split; [exact E2|]. replace (S k' - S (S i))%nat with (k' - S i)%nat by lia. exact E3.
  Qed.
  Lemma fri_sound final betas mats k f : (0 < lb)%nat -> (0 < length betas)%nat -> k = (lb + length betas)%nat -> (k <= adicity)%nat -> length f = (2 ^ k)%nat ->
    honest_folding adicity root threads [f] final k (repeat 0 (2 ^ k)) betas mats ->
    low k f \/ exists i m beta, nth_error mats i = Some m /\ nth_error betas i = Some beta /\ lucky (k - S i) m beta.
  Proof using Had Hroot H2 Ht.
    intros Hlb Hne Ek Hk Hf HF. destruct betas as [|beta betas]; [cbn in Hne; lia|]. destruct mats as [|m mats]; [destruct HF|].
    destruct HF as (k' & f' & E & Hm & Hf' & HF). subst k. cbn [length] in *. assert (k' = (lb + length betas)%nat) by lia. rewrite E in *.
    assert (A : add_inputs (repeat 0 (2 ^ S k')) [f] = f).
    { cbn [add_inputs]. rewrite repeat_length, Hf, Nat.eqb_refl. apply nth_ext with (d := 0) (d' := 0); [rewrite add_vectors_length; rewrite repeat_length; auto|].
      intros i Hi. rewrite add_vectors_length in Hi by (rewrite repeat_length; auto). rewrite repeat_length in Hi. rewrite add_vectors_nth by (rewrite repeat_length; auto). rewrite nth_repeat. ring. }
    rewrite A in Hm.
    apply (folding_sound [] final Hlb (beta :: betas) (m :: mats) (S k') f); [cbn; lia|exact Hk|exact Hf|reflexivity|].
    cbn [honest_folding]. exists k', f'. split; [reflexivity|]. split; [exact Hm|]. split; [exact Hf'|].
    assert (Lm : length m = (2 ^ k')%nat /\ Forall (fun row => length row = 2%nat) m).
    { rewrite (leaves_spec K (2 ^ k') f) in Hm by (cbn [Nat.pow] in Hf; lia). injection Hm as <-. split; [rewrite map_length, seq_length; reflexivity|].
      apply Forall_forall. intros r Hr. apply in_map_iff in Hr. destruct Hr as (i & <- & _). reflexivity. }
    destruct (fold_matrix_rows K adicity root ltac:(lia) Hroot threads beta k' m Ht ltac:(lia) Hk (proj1 Lm) (proj2 Lm)) as (f2 & F2 & Lf & _).
    rewrite Hf' in F2. injection F2 as <-.
    assert (T : forall betas mats k'' g, length g = (2 ^ k'')%nat -> (k'' < S k')%nat -> k'' = (lb + length betas)%nat -> honest_folding adicity root threads [f] final k'' g betas mats -> honest_folding adicity root threads [] final k'' g betas mats).
    { clear - Hf Had Hroot Ht Hk Hlb. induction betas as [|b betas IH]; intros [|m mats] k'' g Hg Hl Hb H; cbn [honest_folding] in *; auto.
      destruct H as (k1 & f1 & -> & M & F & H). exists k1, f1. split; [reflexivity|]. rewrite add_inputs_small in M.
      2:{ repeat constructor. rewrite Hf, Hg. intros E. apply Nat.pow_inj_r in E; lia. }
      split; [exact M|]. split; [exact F|]. cbn [length] in Hb. apply IH; [|lia|lia|exact H].
      assert (Lm : length m = (2 ^ k1)%nat /\ Forall (fun row => length row = 2%nat) m).
      { rewrite (leaves_spec K (2 ^ k1) g) in M by (cbn [Nat.pow] in Hg; lia). injection M as <-. split; [rewrite map_length, seq_length; reflexivity|].
        apply Forall_forall. intros r Hr. apply in_map_iff in Hr. destruct Hr as (i & <- & _). reflexivity. }
      destruct (fold_matrix_rows K adicity root ltac:(lia) Hroot threads b k1 m Ht ltac:(lia) ltac:(lia) (proj1 Lm) (proj2 Lm)) as (f2 & F2 & Lf & _). congruence. }
    apply T; auto.
  Qed.
End Sound.
