(** Poseidon2 on scalar fields of 31 bits: the sums of stored values are exact and reduce to the internal matrix. *)
From Coq Require Import ZArith List Bool Arith Lia.
From Verif Require Import BigIntModel ParallelizeProof SmallFieldModel SmallFieldSpec SmallFieldProof PolyModel FFTProof4 PoseidonModel.
Import ListNotations.
Open Scope Z_scope.

Definition zsum (l : list Z) : Z := fold_right Z.add 0 l.

Section P3.
  Variables (p : Z) (reduce : Z -> Z) (maxs : Z) (good : Z -> Z -> Prop).
  Hypothesis Hp : 2 < p < 2 ^ 31.
  Hypothesis Hs : 0 <= maxs <= 31.
  Variable maxn : Z.
  Hypothesis Hn : 1 <= maxn <= 2 ^ 31.
  Hypothesis Hgood : forall s, 0 <= s <= maxn * (p - 1) + (p - 1) * 2 ^ maxs + p -> good (reduce s) s.

  Lemma zsum_bound l : Forall (fun x => 0 <= x < p) l -> 0 <= zsum l <= Z.of_nat (length l) * (p - 1).
  Proof. induction 1 as [|x l Hx _ IH]; cbn [zsum fold_right length]; [lia|]. fold (zsum l). rewrite Nat2Z.inj_succ. nia. Qed.
  Lemma accumulate_ok l : forall acc, 0 <= acc -> Forall (fun x => 0 <= x < p) l -> acc + Z.of_nat (length l) * (p - 1) < 2 ^ 64 ->
    fold_left (fun acc x => trunc 64 (acc + x)) l acc = acc + zsum l.
  Proof.
    induction l as [|x l IH]; intros acc Ha Hl Hb; cbn [fold_left zsum fold_right]; [lia|]. fold (zsum l).
    inversion Hl as [|? ? Hx Hl']; subst. cbn [length] in Hb. rewrite Nat2Z.inj_succ in Hb.
    assert (Hb' : acc + x + Z.of_nat (length l) * (p - 1) < 2 ^ 64) by nia.
    assert (0 <= Z.of_nat (length l) * (p - 1)) by nia.
    rewrite trunc_small by lia. rewrite IH by (try assumption; lia). lia.
  Qed.
  Lemma pow_le s : 0 <= s <= maxs -> 1 <= 2 ^ s <= 2 ^ maxs.
  Proof. intros H. split; [|apply Z.pow_le_mono_r; lia]. pose proof (Z.pow_pos_nonneg 2 s). lia. Qed.
  Lemma max_small : maxn * (p - 1) + (p - 1) * 2 ^ maxs + p < 2 ^ 63.
  Proof.
    assert (2 ^ maxs <= 2 ^ 31) by (apply Z.pow_le_mono_r; lia).
    assert (maxn * (p - 1) <= 2 ^ 31 * (2 ^ 31 - 2)) by (apply Z.mul_le_mono_nonneg; lia).
    assert ((p - 1) * 2 ^ maxs <= (2 ^ 31 - 2) * 2 ^ 31) by (apply Z.mul_le_mono_nonneg; try lia; apply Z.pow_nonneg; lia).
    change (2 ^ 63) with (2 ^ 31 * 2 ^ 31 + 2 ^ 31 * 2 ^ 31). lia.
  Qed.

  Lemma p3_ok v0 r shifts : Forall (fun x => 0 <= x < p) (v0 :: r) -> Forall (fun s => 0 <= s <= maxs) shifts ->
    (length r <= length shifts)%nat -> Z.of_nat (S (length r)) <= maxn ->
    exists out, p3_apply p reduce (v0 :: r) shifts = Some out /\ length out = S (length r) /\
      forall i x, nth_error (v0 :: r) i = Some x ->
        exists y s, nth_error out i = Some y /\ good y s /\
          s mod p = (zsum (v0 :: r) + (match i with O => -2 | S i => 2 ^ nth i shifts 0 end) * x) mod p.
  Proof.
    intros Hv Hsh Hl Hlen. inversion Hv as [|? ? Hx Hr]; subst. pose proof max_small as MS. pose proof (zsum_bound r Hr) as Br.
    assert (Hlp : (Z.of_nat (length r) + 1) * (p - 1) <= maxn * (p - 1)) by (apply Z.mul_le_mono_nonneg_r; lia).
    assert (0 <= (p - 1) * 2 ^ maxs) by (apply Z.mul_nonneg_nonneg; [lia|apply Z.pow_nonneg; lia]).
    unfold p3_apply. cbv zeta. rewrite (accumulate_ok r 0) by (try assumption; lia). rewrite Z.add_0_l.
    rewrite (trunc_small 64 (zsum r + v0)) by lia.
    assert (E0 : sub_mod p (reduce_default p) 0 v0 = (0 - v0) mod p) by (apply sub_mod_spec; lia). rewrite E0.
    pose proof (Z.mod_pos_bound (0 - v0) p ltac:(lia)) as B0. rewrite (trunc_small 64 (zsum r + _)) by lia.
    set (g := fun i => reduce (zsum r + v0 + nth i r 0 * 2 ^ nth i shifts 0)).
    assert (Bi : forall i, (i < length r)%nat -> 0 <= nth i r 0 < p /\ 0 <= nth i shifts 0 <= maxs).
    { intros i Hi. split; [apply (proj1 (Forall_forall _ _) Hr), nth_In; exact Hi|apply (proj1 (Forall_forall _ _) Hsh), nth_In; lia]. }
    assert (Bs : forall i, (i < length r)%nat -> 0 <= nth i r 0 * 2 ^ nth i shifts 0 <= (p - 1) * 2 ^ maxs).
    { intros i Hi. destruct (Bi i Hi) as [H1 H2]. pose proof (pow_le _ H2). split; [nia|]. apply Z.mul_le_mono_nonneg; lia. }
    rewrite (all_some_tab _ g).
    2:{ intros i Hi. apply in_seq in Hi. rewrite (nth_error_nth' r 0) by lia. rewrite (nth_error_nth' shifts 0) by lia.
        unfold p3_entry, g. pose proof (Bs i ltac:(lia)) as Y. destruct (Bi i ltac:(lia)) as [H1 H2].
        destruct (Z.ltb_spec (nth i shifts 0) 64); [|lia]. rewrite Z.shiftl_mul_pow2 by lia.
        rewrite (trunc_small 64 (_ * _)) by lia. rewrite trunc_small by lia. reflexivity. }
    cbn [option_map]. eexists. split; [reflexivity|]. split; [cbn [length]; rewrite map_length, seq_length; reflexivity|].
    intros i x Hi. destruct i as [|i]; cbn [nth_error] in Hi |- *.
    - injection Hi as <-. eexists _, _. split; [reflexivity|]. split; [apply Hgood; lia|]. cbn [zsum fold_right]. fold (zsum r).
      rewrite Z.add_mod_idemp_r by lia. f_equal. ring.
    - assert (Hi' : (i < length r)%nat) by (apply nth_error_Some; congruence).
      assert (Ex : x = nth i r 0) by (rewrite (nth_error_nth' r 0) in Hi by exact Hi'; congruence). subst x.
      rewrite nth_error_map, (nth_error_nth' (seq 0 (length r)) 0%nat) by (rewrite seq_length; lia).
      rewrite seq_nth by lia. cbn [option_map Nat.add]. unfold g. eexists _, _. split; [reflexivity|]. pose proof (Bs i Hi').
      split; [apply Hgood; lia|]. cbn [zsum fold_right]. fold (zsum r). f_equal. ring.
  Qed.
End P3.

Definition in_range (p : Z) (v : list Z) : Prop := Forall (fun x => 0 <= x < p) v.
Lemma p3_mont_ok p v shifts : Z.odd p = true -> 2 < p < 2 ^ 31 -> v <> [] -> in_range p v -> Forall (fun s => 0 <= s <= 31) shifts ->
  (length v <= S (length shifts))%nat -> Z.of_nat (length v) < 2 ^ 31 ->
  exists out, p3_apply_mont p v shifts = Some out /\ length out = length v /\
    forall i x, nth_error v i = Some x -> exists y, nth_error out i = Some y /\ 0 <= y < p /\
      (y * 2 ^ 32) mod p = (zsum v + (match i with O => -2 | S i => 2 ^ nth i shifts 0 end) * x) mod p.
Proof.
  intros Ho Hp Hne Hv Hs Hl Hn. destruct v as [|v0 r]; [congruence|]. cbn [length] in Hl, Hn.
  destruct (p3_ok p (from_mont p) 31 (fun y s => 0 <= y < p /\ (y * 2 ^ 32) mod p = s mod p) Hp ltac:(lia) (2 ^ 31 - 1) ltac:(lia)) with (v0 := v0) (r := r) (shifts := shifts) as (out & E & L & H); try assumption; try lia.
  - intros s Hs'. apply from_mont_spec; [exact Ho|exact Hp|]. change (2 ^ 32) with (2 * 2 ^ 31). nia.
  - exists out. split; [exact E|]. split; [exact L|]. intros i x Hi. destruct (H i x Hi) as (y & s & Ey & (B & C) & D).
    exists y. split; [exact Ey|]. split; [exact B|]. rewrite C. exact D.
Qed.

Lemma from_u62_ok s : 0 <= s < 2 ^ 62 - 2 ^ 31 -> 0 <= from_u62 mersenne31 s < mersenne31 /\ from_u62 mersenne31 s mod mersenne31 = s mod mersenne31.
Proof.
  intros Hs. unfold from_u62. cbv zeta. rewrite Z.shiftr_div_pow2 by lia.
  assert (EL : Z.land s mersenne31 = s mod 2 ^ 31) by (apply (Z.land_ones s 31); lia). rewrite EL. clear EL.
  pose proof (Z.div_mod s (2 ^ 31) ltac:(lia)) as D. pose proof (Z.mod_pos_bound s (2 ^ 31) ltac:(lia)) as M.
  set (hi := s / 2 ^ 31) in *. set (lo := s mod 2 ^ 31) in *.
  assert (Hh : 0 <= hi < 2 ^ 31 - 1) by lia. rewrite !trunc_small by lia.
  assert (E : sf_add mersenne31 lo hi = (lo + hi) mod mersenne31).
  { unfold sf_add, add_mod. rewrite trunc_small by lia. apply reduce32_spec; unfold mersenne31; lia. }
  rewrite E. split; [apply Z.mod_pos_bound; unfold mersenne31; lia|]. rewrite Z.mod_mod by (unfold mersenne31; lia).
  replace s with (lo + hi + hi * mersenne31) by (unfold mersenne31; lia). rewrite Z.mod_add by (unfold mersenne31; lia). reflexivity.
Qed.
Lemma p3_plain_ok v shifts : v <> [] -> in_range mersenne31 v -> Forall (fun s => 0 <= s <= 30) shifts ->
  (length v <= S (length shifts))%nat -> Z.of_nat (length v) < 2 ^ 30 ->
  exists out, p3_apply_plain mersenne31 v shifts = Some out /\ length out = length v /\
    forall i x, nth_error v i = Some x -> exists y, nth_error out i = Some y /\ 0 <= y < mersenne31 /\
      y mod mersenne31 = (zsum v + (match i with O => -2 | S i => 2 ^ nth i shifts 0 end) * x) mod mersenne31.
Proof.
  intros Hne Hv Hs Hl Hn. destruct v as [|v0 r]; [congruence|]. cbn [length] in Hl, Hn.
  destruct (p3_ok mersenne31 (from_u62 mersenne31) 30 (fun y s => 0 <= y < mersenne31 /\ y mod mersenne31 = s mod mersenne31)
              ltac:(unfold mersenne31; lia) ltac:(lia) (2 ^ 30 - 1) ltac:(lia)) with (v0 := v0) (r := r) (shifts := shifts) as (out & E & L & H); try assumption; try lia.
  - intros s Hs'. apply from_u62_ok. unfold mersenne31 in Hs'. lia.
  - exists out. split; [exact E|]. split; [exact L|]. intros i x Hi. destruct (H i x Hi) as (y & s & Ey & (B & C) & D).
    exists y. split; [exact Ey|]. split; [exact B|]. rewrite C. exact D.
Qed.
