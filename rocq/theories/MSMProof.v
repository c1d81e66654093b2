(** Integer multiples in a commutative group, and the linear-combination view of the bucket method. *)
From Coq Require Import ZArith List Bool Lia Permutation.
From Verif Require Import BigIntModel BigIntSpec BigIntProof BigIntProof2 ParallelizeModel ParallelizeProof SemigroupSpec MSMModel MSMSpec.
Import ListNotations.
Open Scope Z_scope.

Section Group.
  Context {G : Type} (mem : G -> Prop) (zero : G) (add : G -> G -> G) (opp : G -> G).
  Variable HG : abelian_group mem zero add opp.
  Notation zmul := (zmul zero add opp).
  Notation times := (times zero add).
  Notation msm := (msm zero add opp).

  Lemma times_mem n g : mem g -> mem (times n g).
  Proof. intro Hg. induction n; cbn; [apply (ag_zero _ _ _ _ HG)|apply (ag_add _ _ _ _ HG); auto]. Qed.
  Lemma zmul_mem z g : mem g -> mem (zmul z g).
  Proof.
    intro Hg. destruct z; cbn; [apply (ag_zero _ _ _ _ HG)|apply times_mem; auto|].
    apply (ag_opp _ _ _ _ HG). apply times_mem; auto.
  Qed.
  Lemma add_zero_r x : mem x -> add x zero = x.
  Proof. intro. rewrite (ag_comm _ _ _ _ HG) by (auto; apply (ag_zero _ _ _ _ HG)). apply (ag_zero_l _ _ _ _ HG); auto. Qed.
  Lemma opp_unique x y : mem x -> mem y -> add x y = zero -> y = opp x.
  Proof.
    intros Hx Hy E. pose proof (ag_opp _ _ _ _ HG x Hx) as Ho.
    transitivity (add (add (opp x) x) y).
    - rewrite (ag_comm _ _ _ _ HG (opp x) x) by auto. rewrite (ag_opp_r _ _ _ _ HG) by auto. symmetry. apply (ag_zero_l _ _ _ _ HG); auto.
    - rewrite <- (ag_assoc _ _ _ _ HG) by auto. rewrite E. apply add_zero_r; auto.
  Qed.
  Lemma add_swap x y z w : mem x -> mem y -> mem z -> mem w -> add (add x y) (add z w) = add (add x z) (add y w).
  Proof.
    intros. pose proof (ag_add _ _ _ _ HG) as A.
    rewrite <- !(ag_assoc _ _ _ _ HG) by auto. f_equal. rewrite !(ag_assoc _ _ _ _ HG) by auto. f_equal. apply (ag_comm _ _ _ _ HG); auto.
  Qed.
  Lemma opp_add x y : mem x -> mem y -> opp (add x y) = add (opp x) (opp y).
  Proof.
    intros Hx Hy. pose proof (ag_opp _ _ _ _ HG x Hx). pose proof (ag_opp _ _ _ _ HG y Hy). pose proof (ag_add _ _ _ _ HG) as A.
    symmetry. apply opp_unique; auto. rewrite add_swap by auto. rewrite !(ag_opp_r _ _ _ _ HG) by auto. apply (ag_zero_l _ _ _ _ HG). apply (ag_zero _ _ _ _ HG).
  Qed.
  Lemma opp_zero : opp zero = zero.
  Proof. pose proof (ag_zero _ _ _ _ HG) as Z0. symmetry. apply opp_unique; auto. apply (ag_zero_l _ _ _ _ HG); auto. Qed.
  Lemma opp_opp x : mem x -> opp (opp x) = x.
  Proof.
    intro Hx. pose proof (ag_opp _ _ _ _ HG x Hx). symmetry. apply opp_unique; auto.
    rewrite (ag_comm _ _ _ _ HG) by auto. apply (ag_opp_r _ _ _ _ HG); auto.
  Qed.

  Lemma zmul_of_nat n g : zmul (Z.of_nat n) g = times n g.
  Proof. destruct n; [reflexivity|]. cbn [Z.of_nat]. unfold MSMSpec.zmul. rewrite SuccNat2Pos.id_succ. reflexivity. Qed.
  Lemma zmul_opp z g : mem g -> zmul (- z) g = opp (zmul z g).
  Proof.
    intro Hg. destruct z; cbn; [symmetry; apply opp_zero|reflexivity|]. symmetry. apply opp_opp. apply times_mem; auto.
  Qed.
  Lemma zmul_succ z g : mem g -> zmul (z + 1) g = add g (zmul z g).
  Proof.
    intro Hg. destruct (Z_lt_le_dec z 0) as [Hz|Hz].
    - set (n := Z.to_nat (- z - 1)). assert (E : z = - Z.of_nat (S n)) by lia. rewrite E.
      replace (- Z.of_nat (S n) + 1) with (- Z.of_nat n) by lia. rewrite !zmul_opp, !zmul_of_nat by auto.
      cbn [SemigroupSpec.times]. pose proof (times_mem n g Hg) as Ht. pose proof (ag_opp _ _ _ _ HG) as O. rewrite opp_add by auto.
      rewrite (ag_assoc _ _ _ _ HG) by auto. rewrite (ag_opp_r _ _ _ _ HG) by auto. symmetry. apply (ag_zero_l _ _ _ _ HG). auto.
    - rewrite <- (Z2Nat.id z) by auto. replace (Z.of_nat (Z.to_nat z) + 1) with (Z.of_nat (S (Z.to_nat z))) by lia. rewrite !zmul_of_nat. reflexivity.
  Qed.
  Lemma zmul_add_nat z n g : mem g -> zmul (Z.of_nat n + z) g = add (zmul (Z.of_nat n) g) (zmul z g).
  Proof.
    intro Hg. induction n as [|n IH].
    - cbn [Z.of_nat]. cbn [MSMSpec.zmul]. rewrite (ag_zero_l _ _ _ _ HG); [reflexivity|apply zmul_mem; auto].
    - replace (Z.of_nat (S n) + z) with (Z.of_nat n + z + 1) by lia. rewrite zmul_succ, IH by auto.
      replace (Z.of_nat (S n)) with (Z.of_nat n + 1) by lia. rewrite zmul_succ by auto.
      apply (ag_assoc _ _ _ _ HG); auto; apply zmul_mem; auto.
  Qed.
  Lemma zmul_add x y g : mem g -> zmul (x + y) g = add (zmul x g) (zmul y g).
  Proof.
    intro Hg. destruct (Z_lt_le_dec x 0) as [Hx|Hx].
    - rewrite <- (Z.opp_involutive (x + y)). rewrite zmul_opp by auto.
      pose proof (zmul_mem (- (x + y)) g Hg) as M1.
      assert (E : zmul (- x + (x + y)) g = add (zmul (- x) g) (zmul (x + y) g)).
      { rewrite <- (Z2Nat.id (- x)) by lia. apply zmul_add_nat; auto. }
      replace (- x + (x + y)) with y in E by lia. rewrite E, <- zmul_opp by auto. rewrite Z.opp_involutive.
      rewrite (zmul_opp x) by auto. rewrite (ag_assoc _ _ _ _ HG); auto using zmul_mem; [|apply (ag_opp _ _ _ _ HG); apply zmul_mem; auto].
      rewrite (ag_opp_r _ _ _ _ HG) by (apply zmul_mem; auto). symmetry. apply (ag_zero_l _ _ _ _ HG). apply zmul_mem; auto.
    - rewrite <- (Z2Nat.id x) by auto. apply zmul_add_nat; auto.
  Qed.
  Lemma zmul_1 g : mem g -> zmul 1 g = g.
  Proof. intro. cbn. apply add_zero_r; auto. Qed.
  Lemma zmul_zero z : zmul z zero = zero.
  Proof.
    assert (T : forall n, times n zero = zero) by (induction n; cbn; [reflexivity|]; rewrite IHn; apply (ag_zero_l _ _ _ _ HG), (ag_zero _ _ _ _ HG)).
    destruct z; cbn; rewrite ?T; auto using opp_zero.
  Qed.
  Lemma zmul_mul_nat n z g : mem g -> zmul (Z.of_nat n * z) g = zmul (Z.of_nat n) (zmul z g).
  Proof.
    intro Hg. induction n as [|n IH]; [reflexivity|].
    replace (Z.of_nat (S n)) with (Z.of_nat n + 1) by lia. rewrite zmul_succ by (apply zmul_mem; auto).
    rewrite <- IH. rewrite <- zmul_add by auto. f_equal. lia.
  Qed.
  Lemma zmul_mul x z g : mem g -> zmul (x * z) g = zmul x (zmul z g).
  Proof.
    intro Hg. destruct (Z_lt_le_dec x 0) as [Hx|Hx].
    - assert (exists k, x = - Z.of_nat k) as [k ->] by (exists (Z.to_nat (- x)); lia). replace (- Z.of_nat k * z) with (- (Z.of_nat k * z)) by lia.
      rewrite !zmul_opp by auto using zmul_mem. f_equal. apply zmul_mul_nat; auto.
    - rewrite <- (Z2Nat.id x) by auto. apply zmul_mul_nat; auto.
  Qed.

  Lemma msm_mem : forall zs gs, Forall mem gs -> mem (msm zs gs).
  Proof.
    induction zs as [|z zs IH]; intros [|g gs] H; cbn; try apply (ag_zero _ _ _ _ HG).
    inversion H; subst. apply (ag_add _ _ _ _ HG); [apply zmul_mem; auto|auto].
  Qed.
  Lemma msm_app : forall zs1 gs1 zs2 gs2, length zs1 = length gs1 -> Forall mem gs1 -> Forall mem gs2 ->
    msm (zs1 ++ zs2) (gs1 ++ gs2) = add (msm zs1 gs1) (msm zs2 gs2).
  Proof.
    induction zs1 as [|z zs1 IH]; intros [|g gs1] zs2 gs2 L H1 H2; try discriminate; cbn.
    - symmetry. apply (ag_zero_l _ _ _ _ HG). apply msm_mem; auto.
    - inversion H1; subst. rewrite IH by auto. apply (ag_assoc _ _ _ _ HG); auto using zmul_mem, msm_mem.
  Qed.

  (** Linear combinations of fixed elements, with coefficients given by a function of the position. *)
  Section Linear.
    Variable gs : list G.
    Hypothesis Hgs : Forall mem gs.
    Definition lin (c : nat -> Z) : G := msm (map c (seq 0 (length gs))) gs.

    Lemma msm_map_add (c d : nat -> Z) : forall l hs, Forall mem hs ->
      msm (map (fun i => c i + d i) l) hs = add (msm (map c l) hs) (msm (map d l) hs).
    Proof.
      induction l as [|i l IH]; intros [|h hs] H; cbn; try (symmetry; apply (ag_zero_l _ _ _ _ HG), (ag_zero _ _ _ _ HG)).
      inversion H; subst. rewrite IH, zmul_add by auto. apply add_swap; auto using zmul_mem, msm_mem.
    Qed.
    Lemma lin_ext c d : (forall j, (j < length gs)%nat -> c j = d j) -> lin c = lin d.
    Proof. intro H. unfold lin. f_equal. apply map_ext_in. intros j Hj. apply in_seq in Hj. apply H. lia. Qed.
    Lemma lin_add c d : lin (fun j => c j + d j) = add (lin c) (lin d).
    Proof. apply msm_map_add; auto. Qed.
    Lemma lin_zero : lin (fun _ => 0) = zero.
    Proof.
      unfold lin. generalize (seq 0 (length gs)) as l. clear Hgs. induction gs as [|h hs IH]; intros [|i l]; try reflexivity.
      cbn [map MSMSpec.msm]. rewrite IH. apply (ag_zero_l _ _ _ _ HG), (ag_zero _ _ _ _ HG).
    Qed.
    Lemma lin_mem c : mem (lin c). Proof. apply msm_mem; auto. Qed.
    Lemma msm_unit (k : nat) : forall hs a g, Forall mem hs -> nth_error hs k = Some g ->
      msm (map (fun j => if Nat.eqb j (a + k) then 1 else 0) (seq a (length hs))) hs = g.
    Proof.
      induction k as [|k IH]; intros [|h hs] a g H E; try discriminate; inversion H; subst; cbn [length seq map MSMSpec.msm].
      - cbn in E. injection E as ->. rewrite Nat.add_0_r, Nat.eqb_refl. rewrite zmul_1 by auto.
        assert (Z : msm (map (fun j => if Nat.eqb j a then 1 else 0) (seq (S a) (length hs))) hs = zero).
        { assert (forall b, (a < b)%nat -> msm (map (fun j => if Nat.eqb j a then 1 else 0) (seq b (length hs))) hs = zero) as X; [|apply X; lia].
          clear H. induction hs as [|x xs IHx]; intros b Hb; [reflexivity|]. cbn [length seq map MSMSpec.msm]. inversion H3; subst.
          replace (Nat.eqb b a) with false by (symmetry; apply Nat.eqb_neq; lia). rewrite IHx by (auto; try lia). apply (ag_zero_l _ _ _ _ HG), (ag_zero _ _ _ _ HG). }
        rewrite Z. apply add_zero_r; auto.
      - cbn in E. replace (Nat.eqb a (a + S k)) with false by (symmetry; apply Nat.eqb_neq; lia).
        specialize (IH hs (S a) g H3 E). replace (S a + k)%nat with (a + S k)%nat in IH by lia. rewrite IH.
        apply (ag_zero_l _ _ _ _ HG). apply nth_error_In in E. rewrite Forall_forall in H3. auto.
    Qed.
    Lemma lin_unit k g : nth_error gs k = Some g -> lin (fun j => if Nat.eqb j k then 1 else 0) = g.
    Proof. intro E. unfold lin. apply (msm_unit k gs 0 g Hgs E). Qed.
    Lemma lin_opp c : lin (fun j => - c j) = opp (lin c).
    Proof.
      apply opp_unique; try apply lin_mem. rewrite <- lin_add. rewrite <- lin_zero. apply lin_ext. intros; lia.
    Qed.
  End Linear.
End Group.

(** ** The schedule of an OpenMP loop over windows does not matter. *)
Lemma nth_error_set_nth {B} (l : list B) : forall k x j, (k < length l)%nat ->
  nth_error (set_nth k x l) j = if Nat.eqb j k then Some x else nth_error l j.
Proof.
  intros k x j Hk. destruct (Nat.eqb_spec j k) as [->|N].
  - destruct (nth_error l k) as [y|] eqn:E; [|apply nth_error_None in E; lia]. apply (set_nth_same x l k y E).
  - apply set_nth_other; auto.
Qed.
Lemma nth_error_eq {A} : forall l1 l2 : list A, (forall j, nth_error l1 j = nth_error l2 j) -> l1 = l2.
Proof.
  induction l1 as [|x l1 IH]; intros [|y l2] H; try reflexivity; try (specialize (H 0%nat); discriminate H).
  pose proof (H 0%nat) as H0. cbn in H0. injection H0 as ->. f_equal. apply IH. intro j. apply (H (S j)).
Qed.
Lemma run_windows_any {B} (f : nat -> option B) (v : nat -> B) : forall order l,
  (forall i, In i order -> f i = Some (v i) /\ (i < length l)%nat) ->
  exists r, run_windows order f l = Some r /\ length r = length l /\
            forall j, nth_error r j = if existsb (Nat.eqb j) order then Some (v j) else nth_error l j.
Proof.
  induction order as [|i order IH]; intros l H; cbn [run_windows].
  - exists l. cbn. auto.
  - destruct (H i (or_introl eq_refl)) as [Hf Hi]. rewrite Hf.
    destruct (IH (set_nth i (v i) l)) as (r & E & L & N).
    { intros k Hk. rewrite set_nth_length. apply H. right; auto. }
    exists r. rewrite set_nth_length in L. repeat split; auto. intro j. rewrite N. cbn [existsb].
    rewrite nth_error_set_nth by auto. destruct (Nat.eqb_spec j i) as [->|]; cbn; [destruct (existsb (Nat.eqb i) order); reflexivity|reflexivity].
Qed.
Lemma run_windows_schedule {B} n order (f : nat -> option B) (v : nat -> B) l : schedule n order -> length l = n ->
  (forall i, (i < n)%nat -> f i = Some (v i)) -> run_windows order f l = Some (map v (seq 0 n)).
Proof.
  intros HS HL Hf. destruct (run_windows_any f v order l) as (r & E & L & N).
  { intros i Hi. apply (Permutation_in _ HS) in Hi. apply in_seq in Hi. split; [apply Hf|]; lia. }
  rewrite E. f_equal. apply nth_error_eq. intro j. rewrite N.
  destruct (existsb (Nat.eqb j) order) eqn:Ex.
  - apply existsb_exists in Ex. destruct Ex as (i & Hi & Ei). apply Nat.eqb_eq in Ei. subst i.
    apply (Permutation_in _ HS) in Hi. apply in_seq in Hi. rewrite nth_error_map.
    rewrite (nth_error_nth' _ 0%nat) by (rewrite seq_length; lia). cbn. rewrite seq_nth by lia. reflexivity.
  - assert (n <= j)%nat.
    { destruct (Nat.le_gt_cases n j) as [|Hj]; auto. exfalso.
      assert (In j order) as I by (apply (Permutation_in _ (Permutation_sym HS)); apply in_seq; lia).
      assert (existsb (Nat.eqb j) order = true) by (apply existsb_exists; exists j; split; auto; apply Nat.eqb_refl). congruence. }
    rewrite (proj2 (nth_error_None l j)) by lia. symmetry. apply nth_error_None. rewrite map_length, seq_length. lia.
Qed.

(** ** Digits *)
Fixpoint digit_sum (w : Z) (ds : list Z) : Z := match ds with [] => 0 | d :: r => d + 2 ^ w * digit_sum w r end.

Lemma windows_count_spec mb w : (0 < w)%nat -> (0 < mb)%nat ->
  (0 < windows_count mb w)%nat /\ (mb <= windows_count mb w * w)%nat /\ ((windows_count mb w - 1) * w < mb)%nat.
Proof.
  intros Hw Hm. unfold windows_count. pose proof (Nat.div_mod (mb + w - 1) w ltac:(lia)) as D.
  pose proof (Nat.mod_upper_bound (mb + w - 1) w ltac:(lia)) as M. set (q := Nat.div (mb + w - 1) w) in *. clearbody q.
  assert (0 < q)%nat by (destruct q; lia). split; [auto|]. split; [nia|].
  destruct q as [|q]; [lia|]. replace (S q - 1)%nat with q by lia. nia.
Qed.

Lemma to_i64_small x : 0 <= x < 2 ^ 63 -> to_i64 x = x.
Proof. intros H. unfold to_i64. destruct (Z.ltb_spec x (2 ^ 63)); lia. Qed.

(** One digit: the coefficient is in [0, 2^w], the carry 0 or 1. *)
Lemma digit_step w carry bits : 1 <= w <= 62 -> 0 <= carry <= 1 -> 0 <= bits < 2 ^ w ->
  let coeff := trunc 64 (carry + bits) in
  let c := Z.shiftr (trunc 64 (coeff + trunc 64 (2 ^ w) / 2)) w in
  let d := to_i64 coeff - to_i64 (trunc 64 (Z.shiftl c w)) in
  coeff = carry + bits /\ 0 <= c <= 1 /\ to_i64 (trunc 64 (Z.shiftl c w)) = c * 2 ^ w /\ d = coeff - c * 2 ^ w /\ - 2 ^ (w - 1) <= d < 2 ^ (w - 1).
Proof.
  intros Hw Hc Hb. cbv zeta.
  assert (P : 2 ^ w = 2 * 2 ^ (w - 1)) by (rewrite <- Z.pow_succ_r by lia; f_equal; lia).
  assert (1 <= 2 ^ (w - 1)) by (apply (Z.pow_le_mono_r 2 0); lia).
  assert (2 ^ (w - 1) <= 2 ^ 61) by (apply Z.pow_le_mono_r; lia).
  assert (2 ^ 63 = 4 * 2 ^ 61) by reflexivity. assert (2 ^ 64 = 8 * 2 ^ 61) by reflexivity.
  set (h := 2 ^ (w - 1)) in *. clearbody h.
  rewrite (trunc_small 64 (carry + bits)) by lia. rewrite (trunc_small 64 (2 ^ w)) by lia.
  replace (2 ^ w / 2) with h by (rewrite P, Z.mul_comm; symmetry; apply Z.div_mul; lia).
  rewrite (trunc_small 64 (carry + bits + h)) by lia.
  rewrite Z.shiftr_div_pow2 by lia.
  assert (C : (carry + bits + h) / 2 ^ w = if carry + bits <? h then 0 else 1).
  { destruct (Z.ltb_spec (carry + bits) h); symmetry.
    - apply (Z.div_unique _ _ 0 (carry + bits + h)); lia.
    - apply (Z.div_unique _ _ 1 (carry + bits + h - 2 ^ w)); lia. }
  rewrite C. destruct (Z.ltb_spec (carry + bits) h) as [Hl|Hl].
  - rewrite Z.shiftl_0_l. rewrite (trunc_small 64 0) by lia. rewrite !to_i64_small by lia. lia.
  - rewrite Z.shiftl_mul_pow2 by lia. rewrite (trunc_small 64 (1 * 2 ^ w)) by lia. rewrite !to_i64_small by lia. lia.
Qed.

Lemma off_step off cnt w m : (0 < S cnt -> off + (S cnt - 1) * w < m)%nat -> (0 < cnt)%nat -> (off + w + (cnt - 1) * w < m)%nat.
Proof. intros H Hc. destruct cnt as [|k]; [lia|]. specialize (H ltac:(lia)). cbn in *. rewrite Nat.sub_0_r. lia. Qed.
Lemma pow_step W cnt : 0 <= W -> 2 ^ (W * Z.of_nat (S cnt)) = 2 ^ W * 2 ^ (W * Z.of_nat cnt).
Proof. intros. rewrite <- Z.pow_add_r by nia. f_equal. lia. Qed.
Lemma mod_step v off w cnt : let W := Z.of_nat w in
  (v / 2 ^ Z.of_nat off) mod (2 ^ W * 2 ^ (W * Z.of_nat cnt)) =
  (v / 2 ^ Z.of_nat off) mod 2 ^ W + 2 ^ W * ((v / 2 ^ Z.of_nat (off + w)) mod 2 ^ (W * Z.of_nat cnt)).
Proof.
  cbv zeta. rewrite Z.rem_mul_r by (first [apply Z.pow_nonzero; lia | apply Z.pow_pos_nonneg; nia]).
  rewrite Z.div_div by (first [apply Z.pow_nonzero; lia | apply Z.pow_pos_nonneg; lia]). rewrite <- Z.pow_add_r by lia.
  rewrite Nat2Z.inj_add. reflexivity.
Qed.
Lemma last_range carry bits c1 m : 0 <= carry <= 1 -> 0 <= bits < m -> 0 <= carry + bits - c1 * m + c1 * m <= m.
Proof. intros. lia. Qed.
Section Digits.
  Variables (n : nat) (s : list Z) (w : nat).
  Hypothesis Hs : limbs64 n s.
  Hypothesis Hw : (1 <= w <= 62)%nat.
  Let W := Z.of_nat w.
  Let Hlen : length s = n. Proof. apply (proj1 Hs). Qed.

  Lemma fill_loop_spec : forall cnt carry off, 0 <= carry <= 1 -> (0 < cnt -> off + (cnt - 1) * w < 64 * n)%nat ->
    exists ds c, fill_digits_loop s w cnt carry off = Some (ds, c) /\ length ds = cnt /\ 0 <= c <= 1 /\
      Forall (fun d => - 2 ^ (W - 1) <= d < 2 ^ (W - 1)) ds /\
      digit_sum W ds + c * 2 ^ (W * Z.of_nat cnt) = carry + (val64 s / 2 ^ Z.of_nat off) mod 2 ^ (W * Z.of_nat cnt) /\
      (cnt <> 0%nat -> 0 <= last ds 0 + c * 2 ^ W <= 2 ^ W).
  Proof.
    induction cnt as [|cnt IH]; intros carry off Hc Hoff.
    - exists [], carry. cbn [fill_digits_loop length digit_sum]. split; [auto|]. split; [auto|]. split; [auto|]. split; [constructor|].
      split; [|congruence]. rewrite Z.mul_0_r. change (2 ^ 0) with 1. rewrite Z.mod_1_r. lia.
    - cbn [fill_digits_loop].
      assert (E : extract_bits 64 s off w = Some ((val64 s / 2 ^ Z.of_nat off) mod 2 ^ W)).
      { apply (extract_bits_correct 64 s off w); [lia|apply (proj2 Hs)|rewrite Hlen; nia|lia]. }
      rewrite E. set (bits := (val64 s / 2 ^ Z.of_nat off) mod 2 ^ W).
      assert (Hb : 0 <= bits < 2 ^ W) by (apply Z.mod_pos_bound; apply Z.pow_pos_nonneg; lia).
      pose proof (digit_step W carry bits ltac:(lia) Hc Hb) as D. cbv zeta in D. fold W.
      set (coeff := trunc 64 (carry + bits)) in *. set (c1 := Z.shiftr (trunc 64 (coeff + trunc 64 (2 ^ W) / 2)) W) in *.
      set (d := to_i64 coeff - to_i64 (trunc 64 (Z.shiftl c1 W))) in *.
      destruct D as (D1 & D2 & D3 & D4 & D5). clearbody d c1 coeff.
      destruct (IH c1 (off + w)%nat D2) as (ds & c & E1 & L & Hc' & F & Sm & T). { intros Hcnt. apply off_step; auto. }
      cbv zeta. rewrite E1. exists (d :: ds), c. split; [reflexivity|]. split; [cbn [length]; rewrite L; reflexivity|]. split; [auto|]. split; [constructor; auto|].
      pose proof (pow_step W cnt ltac:(unfold W; apply Nat2Z.is_nonneg)) as P2.
      split.
      + cbn [digit_sum]. rewrite P2.
        replace (d + 2 ^ W * digit_sum W ds + c * (2 ^ W * 2 ^ (W * Z.of_nat cnt))) with
          (d + 2 ^ W * (digit_sum W ds + c * 2 ^ (W * Z.of_nat cnt))) by ring.
        rewrite Sm, D4, D1. pose proof (mod_step (val64 s) off w cnt) as MS. cbv zeta in MS. fold W in MS. fold bits in MS. rewrite MS. ring.
      + intros _. destruct cnt as [|cnt].
        * destruct ds; [|discriminate L]. cbn [fill_digits_loop] in E1. injection E1 as <-. cbn [last]. rewrite D4, D1. apply last_range; assumption.
        * assert (T' := T ltac:(discriminate)). destruct ds as [|d1 ds]; [discriminate L|]. exact T'.
  Qed.
End Digits.

Lemma add_to_back_spec : forall ds x, ds <> [] -> exists ds', add_to_back ds x = Some ds' /\ length ds' = length ds /\ last ds' 0 = last ds 0 + x /\
  (forall i, (S i < length ds)%nat -> nth_error ds' i = nth_error ds i) /\
  forall w, 0 <= w -> digit_sum w ds' = digit_sum w ds + x * 2 ^ (w * Z.of_nat (length ds - 1)).
Proof.
  induction ds as [|d ds IH]; intros x H; [congruence|]. destruct ds as [|d1 ds].
  - exists [d + x]. cbn. split; [auto|]. split; [auto|]. split; [auto|]. split; [intros; lia|]. intros. rewrite !Z.mul_0_r. change (2 ^ 0) with 1. lia.
  - destruct (IH x) as (ds' & E & L & La & N & S); [discriminate|]. cbn [add_to_back] in *. rewrite E. exists (d :: ds').
    split; [reflexivity|]. split; [cbn in *; lia|]. split; [destruct ds'; [discriminate L|]; exact La|]. split.
    + intros [|i] Hi; [reflexivity|]. cbn [nth_error]. apply N. cbn in *. lia.
    + intros w Hw. cbn [digit_sum]. rewrite S by auto. cbn [length digit_sum]. rewrite !Nat.sub_succ, !Nat.sub_0_r.
      rewrite (pow_step w (length ds) Hw). ring.
Qed.

(** The digits: they recompose the scalar, and fit the buckets of their window. *)
Lemma fill_digits_spec n mb w s : scalar_ok n mb s -> (1 <= w <= 62)%nat -> (0 < mb <= 64 * n)%nat ->
  exists ds, fill_digits s w (windows_count mb w) = Some ds /\ length ds = windows_count mb w /\
    digit_sum (Z.of_nat w) ds = val64 s /\
    (forall i d, nth_error ds i = Some d -> (S i < windows_count mb w)%nat -> - 2 ^ (Z.of_nat w - 1) <= d < 2 ^ (Z.of_nat w - 1)) /\
    0 <= last ds 0 <= 2 ^ Z.of_nat w.
Proof.
  intros [Hs Hv] Hw Hm. destruct (windows_count_spec mb w) as (C0 & C1 & C2); try lia. set (cnt := windows_count mb w) in *. clearbody cnt.
  destruct (fill_loop_spec n s w Hs Hw cnt 0 0%nat) as (ds & c & E & L & Hc & F & S & T); try lia.
  unfold fill_digits. destruct (Nat.leb_spec 64 w); [lia|]. rewrite E.
  assert (X : to_i64 (trunc 64 (Z.shiftl c (Z.of_nat w))) = c * 2 ^ Z.of_nat w).
  { pose proof (Z.pow_le_mono_r 2 (Z.of_nat w) 62 ltac:(lia) ltac:(lia)). pose proof (Z.pow_pos_nonneg 2 (Z.of_nat w) ltac:(lia) ltac:(lia)).
    assert (2 ^ 63 = 2 * 2 ^ 62) by reflexivity. assert (2 ^ 64 = 4 * 2 ^ 62) by reflexivity.
    rewrite Z.shiftl_mul_pow2 by lia. assert (c = 0 \/ c = 1) as [-> | ->] by lia; rewrite (trunc_small 64) by lia; apply to_i64_small; lia. }
  rewrite X. destruct (add_to_back_spec ds (c * 2 ^ Z.of_nat w)) as (ds' & E' & L' & La & N & S').
  { intro; subst ds. cbn in L. lia. }
  exists ds'. split; [auto|]. split; [lia|]. split.
  - rewrite S' by lia. rewrite L. rewrite <- Z.mul_assoc. rewrite <- Z.pow_add_r by nia.
    replace (Z.of_nat w + Z.of_nat w * Z.of_nat (cnt - 1)) with (Z.of_nat w * Z.of_nat cnt) by nia.
    rewrite S. change (2 ^ Z.of_nat 0) with 1. rewrite Z.div_1_r. rewrite Z.add_0_l. apply Z.mod_small. split.
    + apply (val_bound 64 n); auto; lia.
    + eapply Z.lt_le_trans; [exact Hv|]. apply Z.pow_le_mono_r; nia.
  - split.
    + intros i d Hi Hlt. rewrite N in Hi by lia. rewrite Forall_forall in F. apply F. eapply nth_error_In; eauto.
    + rewrite La. apply T. lia.
Qed.
