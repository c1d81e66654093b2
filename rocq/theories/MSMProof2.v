(** Pippenger: the invariants of the bucket method, for linear combinations of the bases. *)
From Coq Require Import ZArith List Bool Lia Permutation.
From Verif Require Import BigIntModel BigIntSpec BigIntProof BigIntProof2 ParallelizeModel ParallelizeProof SemigroupSpec MSMModel MSMSpec MSMProof.
Import ListNotations.
Open Scope Z_scope.

(** Weighted sums of coefficient functions: bucket number k (from 0) counts k + 1 times. *)
Fixpoint weighted (a : Z) (cs : list (nat -> Z)) (j : nat) : Z := match cs with [] => 0 | c :: r => a * c j + weighted (a + 1) r j end.

Lemma weighted_zero : forall m a j, weighted a (repeat (fun _ => 0) m) j = 0.
Proof. induction m; intros; cbn [repeat weighted]; [reflexivity|]. rewrite IHm. lia. Qed.
Lemma weighted_set (d : nat -> Z) : forall cs k a c j, nth_error cs k = Some c ->
  weighted a (set_nth k (fun j => c j + d j) cs) j = weighted a cs j + (a + Z.of_nat k) * d j.
Proof.
  induction cs as [|x cs IH]; intros [|k] a c j E; try discriminate; cbn [set_nth weighted].
  - cbn in E. injection E as ->. lia.
  - cbn in E. rewrite (IH k (a + 1) c j E). lia.
Qed.
Lemma weighted_app : forall cs1 cs2 a j, weighted a (cs1 ++ cs2) j = weighted a cs1 j + weighted (a + Z.of_nat (length cs1)) cs2 j.
Proof.
  induction cs1 as [|c cs1 IH]; intros; cbn [app weighted length]; [rewrite Z.add_0_r; reflexivity|]. rewrite IH. rewrite Nat2Z.inj_succ.
  replace (a + 1 + Z.of_nat (length cs1)) with (a + Z.succ (Z.of_nat (length cs1))) by lia. lia.
Qed.
Definition total (cs : list (nat -> Z)) (j : nat) : Z := fold_right (fun c acc => c j + acc) 0 cs.
Lemma weighted_shift : forall cs a b j, weighted (a + b) cs j = weighted a cs j + b * total cs j.
Proof.
  induction cs as [|c cs IH]; intros; cbn [weighted total fold_right]; [lia|].
  replace (a + b + 1) with (a + 1 + b) by lia. rewrite IH. unfold total. lia.
Qed.

Lemma Forall2_set_nth {A B} (R : A -> B -> Prop) : forall l1 l2 k x y, Forall2 R l1 l2 -> R x y -> Forall2 R (set_nth k x l1) (set_nth k y l2).
Proof. induction l1; intros l2 k x y F Rxy; inversion F; subst; destruct k; cbn [set_nth]; try constructor; auto. Qed.
Lemma Forall2_nth_error {A B} (R : A -> B -> Prop) : forall l1 l2 k x, Forall2 R l1 l2 -> nth_error l1 k = Some x -> exists y, nth_error l2 k = Some y /\ R x y.
Proof. induction l1; intros l2 k x F E; destruct k; try discriminate; inversion F; subst; cbn in *; [injection E as ->; eauto|eauto]. Qed.
Lemma Forall2_rev {A B} (R : A -> B -> Prop) l1 l2 : Forall2 R l1 l2 -> Forall2 R (rev l1) (rev l2).
Proof. induction 1; cbn; [constructor|]. apply Forall2_app; auto. Qed.

Section Pippenger.
  Context {G P B : Type} (mem : G -> Prop) (zero : G) (add : G -> G -> G) (opp : G -> G).
  Context (okp : P -> Prop) (vp : P -> G) (okb : B -> Prop) (vb : B -> G) (ops : bucket_ops P B).
  Variable HG : abelian_group mem zero add opp.
  Variable HC : computes_in mem zero add opp okp vp okb vb ops.
  Variable gs : list G.
  Hypothesis Hgs : Forall mem gs.
  Notation lin := (lin zero add opp gs).
  Definition R (b : B) (c : nat -> Z) : Prop := okb b /\ vb b = lin c.

  Lemma R_ext b c d : R b c -> (forall j, (j < length gs)%nat -> c j = d j) -> R b d.
  Proof. intros [H1 H2] E. split; auto. rewrite H2. apply lin_ext. exact E. Qed.
  Lemma R_zero : R (b_zero ops) (fun _ => 0).
  Proof. destruct (ci_zero _ _ _ _ _ _ _ _ _ HC) as [H1 H2]. split; auto. rewrite H2. symmetry. apply (lin_zero mem); auto. Qed.
  Lemma R_add x y c d : R x c -> R y d -> R (b_add ops x y) (fun j => c j + d j).
  Proof. intros [H1 H2] [H3 H4]. destruct (ci_add _ _ _ _ _ _ _ _ _ HC x y H1 H3) as [E1 E2]. split; auto. rewrite E2, H2, H4. symmetry. apply (lin_add mem); auto. Qed.
  Lemma R_add_in_place x y c d : R x c -> R y d -> R (b_add_in_place ops x y) (fun j => c j + d j).
  Proof. intros [H1 H2] [H3 H4]. destruct (ci_add_in_place _ _ _ _ _ _ _ _ _ HC x y H1 H3) as [E1 E2]. split; auto. rewrite E2, H2, H4. symmetry. apply (lin_add mem); auto. Qed.
  Lemma R_double x c : R x c -> R (b_double_in_place ops x) (fun j => 2 * c j).
  Proof.
    intros [H1 H2]. destruct (ci_double _ _ _ _ _ _ _ _ _ HC x H1) as [E1 E2]. split; auto. rewrite E2, H2.
    rewrite <- (lin_add mem) by auto. apply lin_ext. intros; lia.
  Qed.
  Definition unit (k j : nat) : Z := if Nat.eqb j k then 1 else 0.
  Lemma R_madd x p c k : R x c -> okp p -> nth_error gs k = Some (vp p) -> R (b_madd_in_place ops x p) (fun j => c j + unit k j).
  Proof.
    intros [H1 H2] Hp E. destruct (ci_madd _ _ _ _ _ _ _ _ _ HC x p H1 Hp) as [E1 E2]. split; auto. rewrite E2, H2.
    rewrite (lin_add mem) by auto. f_equal. symmetry. apply (lin_unit mem); auto.
  Qed.
  Lemma R_msub x p c k : R x c -> okp p -> nth_error gs k = Some (vp p) -> R (b_madd_in_place ops x (b_neg_point ops p)) (fun j => c j + - unit k j).
  Proof.
    intros [H1 H2] Hp E. destruct (ci_neg _ _ _ _ _ _ _ _ _ HC p Hp) as [N1 N2].
    destruct (ci_madd _ _ _ _ _ _ _ _ _ HC x (b_neg_point ops p) H1 N1) as [E1 E2]. split; auto. rewrite E2, H2, N2.
    rewrite (lin_add mem) by auto. f_equal. rewrite (lin_opp mem) by auto. f_equal. symmetry. apply (lin_unit mem); auto.
  Qed.
  Lemma R_double_n : forall n x c, R x c -> R (double_n ops n x) (fun j => 2 ^ Z.of_nat n * c j).
  Proof.
    induction n as [|n IH]; intros x c H; cbn [double_n].
    - eapply R_ext; [exact H|]. intros. change (2 ^ Z.of_nat 0) with 1. lia.
    - eapply R_ext; [apply IH; apply R_double; exact H|]. intros j _. cbv beta. rewrite Nat2Z.inj_succ, Z.pow_succ_r by lia. lia.
  Qed.

  (** AccumulateBuckets *)
  Lemma acc_fold : forall bs cs st c1 c2, Forall2 R bs cs -> R (fst st) c1 -> R (snd st) c2 ->
    R (snd (fold_left (fun st bucket => let running_sum := b_add_in_place ops (fst st) bucket in
                                     (running_sum, b_add_in_place ops (snd st) running_sum)) bs st))
      (fun j => c2 j + Z.of_nat (length cs) * c1 j + weighted 1 (rev cs) j).
  Proof.
    induction bs as [|b bs IH]; intros cs st c1 c2 F H1 H2; inversion F; subst; cbn [fold_left].
    - eapply R_ext; [exact H2|]. intros. cbn. lia.
    - rename y into c. rename l' into cs'.
      assert (S1 : R (b_add_in_place ops (fst st) b) (fun j => c1 j + c j)) by (apply R_add_in_place; auto).
      eapply R_ext.
      + cbv zeta. apply IH with (cs := cs') (c1 := fun j => c1 j + c j) (c2 := fun j => c2 j + (c1 j + c j)); auto.
        cbn [snd]. apply R_add_in_place; auto.
      + intros j _. cbv beta. cbn [rev length]. rewrite weighted_app. cbn [weighted]. rewrite rev_length. lia.
  Qed.
  Lemma accumulate_buckets_spec bs cs init c0 : Forall2 R bs cs -> R init c0 ->
    R (accumulate_buckets ops bs init) (fun j => c0 j + weighted 1 cs j).
  Proof.
    intros F H. unfold accumulate_buckets. eapply R_ext.
    - apply acc_fold with (cs := rev cs) (c1 := fun _ => 0) (c2 := c0); [apply Forall2_rev; auto|apply R_zero|exact H].
    - intros j _. cbv beta. rewrite rev_involutive. lia.
  Qed.

  (** AccumulateWindowSums *)
  Definition horner (w : nat) (cs : list (nat -> Z)) (j : nat) : Z := digit_sum (Z.of_nat w) (map (fun c : nat -> Z => c j) cs).
  Lemma win_fold w : forall ws cs t ct, Forall2 R ws cs -> R t ct ->
    R (fold_left (fun total sum => double_n ops w (b_add_in_place ops total sum)) ws t)
      (fun j => 2 ^ (Z.of_nat w * Z.of_nat (length cs)) * ct j + 2 ^ Z.of_nat w * horner w (rev cs) j).
  Proof.
    induction ws as [|x ws IH]; intros cs t ct F H; inversion F; subst; cbn [fold_left].
    - eapply R_ext; [exact H|]. intros. cbn [length rev map horner digit_sum]. unfold horner. cbn [map digit_sum]. rewrite !Z.mul_0_r. change (2 ^ 0) with 1. lia.
    - rename y into c. rename l' into cs'. eapply R_ext.
      + apply IH with (cs := cs') (ct := fun j => 2 ^ Z.of_nat w * (ct j + c j)); auto. apply R_double_n. apply R_add_in_place; auto.
      + intros j _. cbv beta. cbn [length rev]. rewrite (pow_step (Z.of_nat w) (length cs')) by lia.
        unfold horner. rewrite map_app. cbn [map].
        assert (A : forall l x, digit_sum (Z.of_nat w) (l ++ [x]) = digit_sum (Z.of_nat w) l + 2 ^ (Z.of_nat w * Z.of_nat (length l)) * x).
        { clear. induction l as [|y l IHl]; intros; cbn [app digit_sum length]; [rewrite !Z.mul_0_r; change (2 ^ 0) with 1; lia|].
          rewrite IHl. rewrite pow_step by lia. ring. }
        rewrite A, map_length, rev_length. ring.
  Qed.
  Lemma accumulate_window_sums_spec ws cs w : Forall2 R ws cs -> ws <> [] ->
    exists r, accumulate_window_sums ops ws w = Some r /\ R r (horner w cs).
  Proof.
    intros F N. inversion F as [|b c bs cs' Hb F']; subst; [congruence|]. cbn [accumulate_window_sums].
    eexists. split; [reflexivity|]. eapply R_ext.
    - apply R_add; [exact Hb|]. apply (win_fold w (rev bs) (rev cs') _ (fun _ => 0)); [apply Forall2_rev; auto|apply R_zero].
    - intros j _. cbv beta. unfold horner. rewrite rev_involutive. cbn [map digit_sum]. ring.
  Qed.

  (** One update of a bucket *)
  Lemma update_bucket_spec bs cs k f d : Forall2 R bs cs -> 0 <= k < Z.of_nat (length bs) ->
    (forall b c, R b c -> R (f b) (fun j => c j + d j)) ->
    exists bs' cs', update_bucket bs k f = Some bs' /\ Forall2 R bs' cs' /\ length bs' = length bs /\
      forall j, weighted 1 cs' j = weighted 1 cs j + (k + 1) * d j.
  Proof.
    intros F Hk Hf. unfold update_bucket. destruct (Z.ltb_spec k 0); [lia|].
    destruct (nth_error bs (Z.to_nat k)) as [b|] eqn:E; [|apply nth_error_None in E; lia].
    destruct (Forall2_nth_error _ _ _ _ _ F E) as (c & Ec & Rc).
    eexists _, (set_nth (Z.to_nat k) (fun j => c j + d j) cs). split; [reflexivity|]. split; [apply Forall2_set_nth; auto|].
    split; [apply set_nth_length|]. intro j. rewrite (weighted_set d cs (Z.to_nat k) 1 c j Ec). rewrite Z2Nat.id by lia. lia.
  Qed.

  (** The loops that fill the buckets: [m] bases have been consumed. *)
  Definition upto (m len : nat) (d : nat -> Z) (j : nat) : Z := if (Nat.leb m j && Nat.ltb j (m + len))%bool then d j else 0.
  Lemma upto_cons m len d dm j : d m = dm -> unit m j * dm + upto (S m) len d j = upto m (S len) d j.
  Proof.
    intro E. unfold unit, upto. destruct (Nat.eqb_spec j m) as [->|N].
    - replace (Nat.leb (S m) m) with false by (symmetry; apply Nat.leb_gt; lia). rewrite Nat.leb_refl.
      replace (Nat.ltb m (m + S len)) with true by (symmetry; apply Nat.ltb_lt; lia). cbn [andb]. lia.
    - destruct (Nat.leb_spec (S m) j), (Nat.leb_spec m j); try lia; replace (S m + len)%nat with (m + S len)%nat by lia; cbn [andb]; lia.
  Qed.
  Lemma upto_nil m d j : upto m 0 d j = 0.
  Proof. unfold upto. destruct (Nat.leb_spec m j); cbn [andb]; [|reflexivity]. replace (Nat.ltb j (m + 0)) with false by (symmetry; apply Nat.ltb_ge; lia). reflexivity. Qed.

  Lemma naf_buckets_spec i (d : nat -> Z) nb : forall dss bases m bs cs,
    length bases = length dss -> Forall okp bases -> (forall k p, nth_error bases k = Some p -> nth_error gs (m + k) = Some (vp p)) ->
    (forall k ds, nth_error dss k = Some ds -> nth_error ds i = Some (d (m + k)%nat) /\ - nb <= d (m + k)%nat <= nb) ->
    Z.of_nat (length bs) = nb -> Forall2 R bs cs ->
    exists bs' cs', naf_buckets ops bases dss i bs = Some bs' /\ Forall2 R bs' cs' /\
      forall j, weighted 1 cs' j = weighted 1 cs j + upto m (length dss) d j.
  Proof.
    induction dss as [|ds dss IH]; intros bases m bs cs L Hok Hg Hd Hnb F; cbn [naf_buckets].
    - exists bs, cs. split; [auto|]. split; [auto|]. intro. cbn [length]. rewrite upto_nil. lia.
    - destruct bases as [|p bases]; [discriminate L|]. inversion Hok as [|? ? Hp Hok']; subst.
      destruct (Hd 0%nat ds eq_refl) as [E0 R0]. rewrite Nat.add_0_r in E0, R0. rewrite E0.
      pose proof (Hg 0%nat p eq_refl) as G0. rewrite Nat.add_0_r in G0.
      assert (STEP : forall bs1 cs1 dm, d m = dm -> Forall2 R bs1 cs1 -> length bs1 = length bs ->
        (forall j, weighted 1 cs1 j = weighted 1 cs j + unit m j * dm) ->
        exists bs' cs', naf_buckets ops bases dss i bs1 = Some bs' /\ Forall2 R bs' cs' /\
          forall j, weighted 1 cs' j = weighted 1 cs j + upto m (length (ds :: dss)) d j).
      { intros bs1 cs1 dm Edm F1 L1 W1.
        destruct (IH bases (S m) bs1 cs1) as (bs' & cs' & E' & F' & W'); [cbn in L; lia|auto| | | |auto|].
        - intros k q Hk. replace (S m + k)%nat with (m + S k)%nat by lia. apply Hg. exact Hk.
        - intros k ds' Hk. replace (S m + k)%nat with (m + S k)%nat by lia. apply (Hd (S k)). exact Hk.
        - rewrite L1. reflexivity.
        - exists bs', cs'. split; [auto|]. split; [auto|]. intro j. rewrite W', W1. rewrite <- Z.add_assoc. f_equal. apply upto_cons. exact Edm. }
      destruct (Z.ltb_spec 0 (d m)) as [Hpos|Hnpos]; [|destruct (Z.ltb_spec (d m) 0) as [Hneg|Hnneg]].
      + destruct (update_bucket_spec bs cs (d m - 1) (fun b => b_madd_in_place ops b p) (unit m) F) as (bs1 & cs1 & E1 & F1 & L1 & W1); [lia| |].
        { intros b c Hb. apply R_madd; auto. }
        rewrite E1. apply (STEP bs1 cs1 (d m)); auto. intro j. rewrite W1. f_equal. ring.
      + destruct (update_bucket_spec bs cs (- d m - 1) (fun b => b_madd_in_place ops b (b_neg_point ops p)) (fun j => - unit m j) F)
          as (bs1 & cs1 & E1 & F1 & L1 & W1); [lia| |].
        { intros b c Hb. apply R_msub; auto. }
        rewrite E1. apply (STEP bs1 cs1 (d m)); auto. intro j. rewrite W1. f_equal. ring.
      + apply (STEP bs cs (d m)); auto. intro j. replace (d m) with 0 by lia. lia.
  Qed.

  Lemma repeat_R m : Forall2 R (repeat (b_zero ops) m) (repeat (fun _ => 0) m).
  Proof. induction m; cbn; constructor; auto. apply R_zero. Qed.

  Section Runs.
    Variables (bases : list P) (scalars : list (list Z)) (n mb w : nat).
    Hypothesis Hok : Forall okp bases.
    Hypothesis Egs : gs = map vp bases.
    Hypothesis Hlen : length bases = length scalars.
    Hypothesis Hsc : Forall (scalar_ok n mb) scalars.
    Hypothesis Hw : (1 <= w <= 62)%nat.
    Hypothesis Hmb : (0 < mb <= 64 * n)%nat.
    Let cnt := windows_count mb w.

    Lemma gs_nth k p : nth_error bases k = Some p -> nth_error gs (0 + k) = Some (vp p).
    Proof. intro E. cbn [Nat.add]. rewrite Egs. rewrite nth_error_map, E. reflexivity. Qed.
    Lemma gs_len : length gs = length scalars. Proof. rewrite Egs, map_length. exact Hlen. Qed.

    (** the digits of every scalar *)
    Definition good_digits (s ds : list Z) : Prop :=
      length ds = cnt /\ digit_sum (Z.of_nat w) ds = val64 s /\
      (forall i d, nth_error ds i = Some d -> (S i < cnt)%nat -> - 2 ^ (Z.of_nat w - 1) <= d < 2 ^ (Z.of_nat w - 1)) /\
      0 <= last ds 0 <= 2 ^ Z.of_nat w.
    Lemma fill_all_spec : forall ss, Forall (scalar_ok n mb) ss -> exists dss, fill_all ss w cnt = Some dss /\ Forall2 good_digits ss dss.
    Proof.
      induction 1 as [|s ss Hs _ IH]; cbn [fill_all]; [exists []; auto|].
      destruct (fill_digits_spec n mb w s Hs Hw Hmb) as (ds & E & L & S & T & U). destruct IH as (dss & E' & F).
      fold cnt in E. rewrite E, E'. exists (ds :: dss). split; [reflexivity|]. constructor; auto. split; auto.
    Qed.

    Definition naf_digit (dss : list (list Z)) (i j : nat) : Z := nth i (nth j dss []) 0.
    Lemma naf_window dss i : Forall2 good_digits scalars dss -> (i < cnt)%nat ->
      exists x, single_window_naf ops bases dss w i (Nat.eqb i (cnt - 1)) = Some x /\ R x (naf_digit dss i).
    Proof.
      intros F Hi. unfold single_window_naf.
      set (size := if Nat.eqb i (cnt - 1) then Nat.pow 2 w else Nat.pow 2 (w - 1)).
      assert (Pz : forall m, Z.of_nat (Nat.pow 2 m) = 2 ^ Z.of_nat m) by (intro; apply Nat2Z.inj_pow).
      assert (L : length dss = length scalars) by (symmetry; eapply Forall2_length; eauto).
      destruct (naf_buckets_spec i (naf_digit dss i) (Z.of_nat size) dss bases 0 (repeat (b_zero ops) size) (repeat (fun _ => 0) size))
        as (bs' & cs' & E & F' & W); auto.
      - rewrite L. exact Hlen.
      - exact gs_nth.
      - intros k ds Hk. cbn [Nat.add]. unfold naf_digit. rewrite (nth_error_nth _ _ _ Hk).
        assert (exists s, nth_error scalars k = Some s /\ good_digits s ds) as (s & Es & (G1 & G2 & G3 & G4)).
        { destruct (nth_error scalars k) as [s|] eqn:Es.
          - destruct (Forall2_nth_error _ _ _ _ _ F Es) as (ds' & Hk' & Hgd). rewrite Hk in Hk'. injection Hk' as <-. eauto.
          - apply nth_error_None in Es. assert (nth_error dss k = None) as X by (apply nth_error_None; lia). congruence. }
        destruct (nth_error ds i) as [x|] eqn:Ei; [|apply nth_error_None in Ei; lia].
        rewrite (nth_error_nth _ _ 0 Ei). split; [reflexivity|]. unfold size. destruct (Nat.eqb_spec i (cnt - 1)) as [Ei'|Ni].
        + rewrite Pz. assert (x = last ds 0) as ->; [|lia].
          assert (Hne : ds <> []) by (intro; subst ds; cbn in G1; lia).
          rewrite (app_removelast_last 0 Hne) in Ei. rewrite nth_error_app2 in Ei.
          * assert (length ds = length (removelast ds) + 1)%nat as X by (rewrite (app_removelast_last 0 Hne) at 1; rewrite app_length; reflexivity).
            replace (i - length (removelast ds))%nat with 0%nat in Ei by lia. cbn in Ei. congruence.
          * assert (length ds = length (removelast ds) + 1)%nat as X by (rewrite (app_removelast_last 0 Hne) at 1; rewrite app_length; reflexivity). lia.
        + rewrite Pz. replace (Z.of_nat (w - 1)) with (Z.of_nat w - 1) by lia. specialize (G3 i x Ei ltac:(lia)). lia.
      - rewrite repeat_length. reflexivity.
      - apply repeat_R.
      - fold size. rewrite E. eexists. split; [reflexivity|]. eapply R_ext; [apply accumulate_buckets_spec; [exact F'|apply R_zero]|].
        intros j Hj. cbv beta. rewrite W, weighted_zero. unfold upto. rewrite gs_len in Hj. rewrite L. cbn [Nat.add Nat.leb andb].
        replace (Nat.ltb j (length scalars)) with true by (symmetry; apply Nat.ltb_lt; lia). lia.
    Qed.
    Lemma digit_sum_nth : forall ds, digit_sum (Z.of_nat w) (map (fun i => nth i ds 0) (seq 0 (length ds))) = digit_sum (Z.of_nat w) ds.
    Proof.
      intro ds. f_equal. apply nth_error_eq. intro j. destruct (Nat.lt_ge_cases j (length ds)).
      - rewrite nth_error_map, (nth_error_nth' _ 0%nat) by (rewrite seq_length; lia). cbn. rewrite seq_nth by lia. cbn.
        symmetry. apply nth_error_nth'. lia.
      - rewrite (proj2 (nth_error_None ds j)) by lia. apply nth_error_None. rewrite map_length, seq_length. lia.
    Qed.

    (** unsigned windows *)
    Definition plain_digit (i j : nat) : Z :=
      let s := val64 (nth j scalars []) in if s =? 1 then (if Nat.eqb i 0 then 1 else 0) else (s / 2 ^ Z.of_nat (w * i)) mod 2 ^ Z.of_nat w.
    Lemma plain_buckets_spec off (d : nat -> Z) : forall ss bs0 m st cs cw,
      length bs0 = length ss -> Forall okp bs0 -> (forall k p, nth_error bs0 k = Some p -> nth_error gs (m + k) = Some (vp p)) ->
      Forall (limbs64 n) ss -> (0 < n)%nat ->
      (forall k s, nth_error ss k = Some s -> d (m + k)%nat =
         if val64 s =? 1 then (if Nat.eqb off 0 then 1 else 0) else (val64 s / 2 ^ Z.of_nat off) mod 2 ^ Z.of_nat w) ->
      length (fst st) = (Nat.pow 2 w - 1)%nat -> Forall2 R (fst st) cs -> R (snd st) cw ->
      exists st' cs' cw', plain_buckets ops bs0 ss w off st = Some st' /\ Forall2 R (fst st') cs' /\ R (snd st') cw' /\
        forall j, cw' j + weighted 1 cs' j = cw j + weighted 1 cs j + upto m (length ss) d j.
    Proof.
      induction ss as [|s ss IH]; intros bs0 m st cs cw L Hok0 Hg Hl Hn Hd Hsz F HR; cbn [plain_buckets].
      - exists st, cs, cw. split; [auto|]. split; [auto|]. split; [auto|]. intro. cbn [length]. rewrite upto_nil. lia.
      - destruct bs0 as [|p bs0]; [discriminate L|]. inversion Hok0 as [|? ? Hp Hok']; subst. inversion Hl as [|? ? Hs Hl']; subst.
        pose proof (Hd 0%nat s eq_refl) as D0. rewrite Nat.add_0_r in D0.
        pose proof (Hg 0%nat p eq_refl) as G0. rewrite Nat.add_0_r in G0.
        assert (STEP : forall st1 cs1 cw1 dm, d m = dm -> length (fst st1) = length (fst st) -> Forall2 R (fst st1) cs1 -> R (snd st1) cw1 ->
          (forall j, cw1 j + weighted 1 cs1 j = cw j + weighted 1 cs j + unit m j * dm) ->
          exists st' cs' cw', plain_buckets ops bs0 ss w off st1 = Some st' /\ Forall2 R (fst st') cs' /\ R (snd st') cw' /\
            forall j, cw' j + weighted 1 cs' j = cw j + weighted 1 cs j + upto m (length (s :: ss)) d j).
        { intros st1 cs1 cw1 dm Edm L1 F1 R1 W1.
          destruct (IH bs0 (S m) st1 cs1 cw1) as (st' & cs' & cw' & E' & F' & R' & W'); [cbn in L; lia|auto| |auto|auto| | |auto|auto|].
          - intros k q Hk. replace (S m + k)%nat with (m + S k)%nat by lia. apply Hg. exact Hk.
          - intros k s' Hk. replace (S m + k)%nat with (m + S k)%nat by lia. apply (Hd (S k)). exact Hk.
          - rewrite L1. exact Hsz.
          - exists st', cs', cw'. split; [auto|]. split; [auto|]. split; [auto|]. intro j. rewrite W', W1. rewrite <- !Z.add_assoc.
            do 2 f_equal. apply upto_cons. exact Edm. }
        rewrite (bi_is_zero_val 64 n s) by (auto; lia). rewrite (bi_is_one_val n s) by auto.
        destruct (Z.eqb_spec (val64 s) 0) as [Z0|N0].
        { rewrite Z0 in D0. cbn [Z.eqb] in D0. rewrite Z.div_0_l, Z.mod_0_l in D0 by (apply Z.pow_nonzero; lia).
          apply (STEP st cs cw 0); auto. intro. lia. }
        destruct (Z.eqb_spec (val64 s) 1) as [Z1|N1].
        { destruct (Nat.eqb off 0).
          - apply (STEP (fst st, b_madd_in_place ops (snd st) p) cs (fun j => cw j + unit m j) 1); auto; cbn [fst snd]; [apply R_madd; auto|]. intro. lia.
          - apply (STEP st cs cw 0); auto. intro. lia. }
        destruct (bi_div_by_2exp_correct n s (Z.of_nat off) Hs ltac:(lia)) as [DL DV].
        destruct (bi_div_by_2exp s (Z.of_nat off)) as [|limb rest] eqn:ED; [destruct DL as [DL _]; cbn in DL; lia|].
        cbn [nth_error]. cbn [val] in DV.
        assert (EL : limb mod 2 ^ Z.of_nat w = d m).
        { rewrite D0, <- DV. replace (2 ^ 64) with (2 ^ (64 - Z.of_nat w) * 2 ^ Z.of_nat w) by (rewrite <- Z.pow_add_r by lia; f_equal; lia).
          replace (limb + 2 ^ (64 - Z.of_nat w) * 2 ^ Z.of_nat w * val64 rest) with (limb + (2 ^ (64 - Z.of_nat w) * val64 rest) * 2 ^ Z.of_nat w) by ring.
          rewrite Z.mod_add by (apply Z.pow_nonzero; lia). reflexivity. }
        cbv zeta. rewrite EL. assert (Hdm : 0 <= d m < 2 ^ Z.of_nat w) by (rewrite <- EL; apply Z.mod_pos_bound, Z.pow_pos_nonneg; lia).
        destruct (Z.eqb_spec (d m) 0) as [Ed|Nd].
        { apply (STEP st cs cw 0); auto. intro. lia. }
        destruct (update_bucket_spec (fst st) cs (d m - 1) (fun b => b_madd_in_place ops b p) (unit m) F) as (bs1 & cs1 & E1 & F1 & L1 & W1).
        { rewrite Hsz. rewrite Nat2Z.inj_sub by (apply Nat.neq_0_lt_0, Nat.pow_nonzero; lia). rewrite Nat2Z.inj_pow. change (Z.of_nat 2) with 2. lia. }
        { intros b c Hb. apply R_madd; auto. }
        rewrite E1. apply (STEP (bs1, snd st) cs1 cw (d m)); auto. intro j. rewrite W1. rewrite <- !Z.add_assoc. do 2 f_equal. ring.
    Qed.

    Lemma plain_window i : (i < cnt)%nat -> exists x, single_window ops bases scalars w (w * i) = Some x /\ R x (plain_digit i).
    Proof.
      intros Hi. unfold single_window. destruct (Nat.leb_spec 64 w); [lia|].
      destruct (plain_buckets_spec (w * i) (plain_digit i) scalars bases 0 (repeat (b_zero ops) (Nat.pow 2 w - 1), b_zero ops)
                  (repeat (fun _ => 0) (Nat.pow 2 w - 1)) (fun _ => 0)) as ([bs' ws'] & cs' & cw' & E & F' & R' & W'); auto.
      - exact gs_nth.
      - eapply Forall_impl; [|exact Hsc]. intros s [Hs _]. exact Hs.
      - lia.
      - intros k s Hk. cbn [Nat.add]. unfold plain_digit. rewrite (nth_error_nth _ _ _ Hk). cbv zeta.
        replace (Nat.eqb (w * i) 0) with (Nat.eqb i 0); [reflexivity|].
        destruct (Nat.eqb_spec i 0) as [Ei|]; destruct (Nat.eqb_spec (w * i) 0); try reflexivity; nia.
      - cbn [fst]. apply repeat_length.
      - cbn [fst]. apply repeat_R.
      - cbn [snd]. apply R_zero.
      - rewrite E. eexists. split; [reflexivity|]. eapply R_ext; [apply accumulate_buckets_spec; [exact F'|exact R']|].
        intros j Hj. cbv beta. rewrite W', weighted_zero. unfold upto. rewrite gs_len in Hj. cbn [Nat.add Nat.leb andb].
        replace (Nat.ltb j (length scalars)) with true by (symmetry; apply Nat.ltb_lt; lia). lia.
    Qed.
    Lemma plain_sum : forall c off v, 0 <= v ->
      digit_sum (Z.of_nat w) (map (fun i => (v / 2 ^ Z.of_nat (w * i)) mod 2 ^ Z.of_nat w) (seq off c)) =
      (v / 2 ^ Z.of_nat (w * off)) mod 2 ^ (Z.of_nat w * Z.of_nat c).
    Proof.
      induction c as [|c IH]; intros off v Hv; cbn [seq map digit_sum].
      - rewrite Z.mul_0_r. change (2 ^ 0) with 1. rewrite Z.mod_1_r. reflexivity.
      - rewrite IH by auto. rewrite pow_step by lia. rewrite mod_step. replace (w * off + w)%nat with (w * S off)%nat by lia. reflexivity.
    Qed.
    Lemma unit_sum : forall c off, (0 < off)%nat -> digit_sum (Z.of_nat w) (map (fun i => if Nat.eqb i 0 then 1 else 0) (seq off c)) = 0.
    Proof. induction c; intros off Ho; cbn [seq map digit_sum]; [reflexivity|]. rewrite IHc by lia. destruct (Nat.eqb_spec off 0); lia. Qed.
    Lemma plain_digit_sum j : (j < length scalars)%nat ->
      digit_sum (Z.of_nat w) (map (fun i => plain_digit i j) (seq 0 cnt)) = val64 (nth j scalars []).
    Proof.
      intro Hj. destruct (windows_count_spec mb w ltac:(lia) ltac:(lia)) as (C0 & C1 & _). fold cnt in C0, C1.
      assert (Hs : scalar_ok n mb (nth j scalars [])) by (rewrite Forall_forall in Hsc; apply Hsc, nth_In; auto).
      destruct Hs as [Hl Hv]. pose proof (val_bound 64 n _ ltac:(lia) Hl) as Hb.
      unfold plain_digit. set (v := val64 (nth j scalars [])) in *. cbv zeta. destruct (Z.eqb_spec v 1) as [E1|N1].
      - destruct cnt as [|c]; [lia|]. cbn [seq map digit_sum]. rewrite unit_sum by lia. rewrite E1. cbn [Nat.eqb]. lia.
      - rewrite plain_sum by lia. rewrite Nat.mul_0_r. change (2 ^ Z.of_nat 0) with 1. rewrite Z.div_1_r. apply Z.mod_small.
        split; [lia|]. eapply Z.lt_le_trans; [exact Hv|]. apply Z.pow_le_mono_r; nia.
    Qed.

    Lemma choose_windows (f : nat -> option B) (c : nat -> nat -> Z) k : (forall i, (i < k)%nat -> exists x, f i = Some x /\ R x (c i)) ->
      exists v : nat -> B, forall i, (i < k)%nat -> f i = Some (v i) /\ R (v i) (c i).
    Proof.
      intro H. exists (fun i => match f i with Some x => x | None => b_zero ops end). intros i Hi.
      destruct (H i Hi) as (x & E & HR). rewrite E. auto.
    Qed.

    Theorem pippenger_spec naf order : schedule cnt order ->
      exists r, pippenger_run ops naf order mb w bases scalars = Some (Some r) /\ okb r /\ vb r = msm zero add opp (map val64 scalars) gs.
    Proof.
      intro Hord. destruct (windows_count_spec mb w ltac:(lia) ltac:(lia)) as (C0 & C1 & _). fold cnt in C0, C1.
      unfold pippenger_run. rewrite Hlen, Nat.eqb_refl. cbn [negb]. cbv zeta. fold cnt.
      assert (FIN : forall (f : nat -> option B) (c : nat -> nat -> Z), (forall i, (i < cnt)%nat -> exists x, f i = Some x /\ R x (c i)) ->
        (forall j, (j < length scalars)%nat -> digit_sum (Z.of_nat w) (map (fun i => c i j) (seq 0 cnt)) = val64 (nth j scalars [])) ->
        exists r, match run_windows order f (repeat (b_zero ops) cnt) with
                  | Some ws => match accumulate_window_sums ops ws w with Some r => Some (Some r) | None => None end
                  | None => None end = Some (Some r) /\ okb r /\ vb r = msm zero add opp (map val64 scalars) gs).
      { intros f c Hf Hc. destruct (choose_windows f c cnt Hf) as (v & Hv).
        rewrite (run_windows_schedule cnt order f v _ Hord (repeat_length _ _) (fun i Hi => proj1 (Hv i Hi))).
        destruct (accumulate_window_sums_spec (map v (seq 0 cnt)) (map c (seq 0 cnt)) w) as (r & Er & Hr).
        - assert (X : forall l, (forall i, In i l -> (i < cnt)%nat) -> Forall2 R (map v l) (map c l)).
          { induction l as [|i l IHl]; intro Hin; cbn; constructor; [apply (Hv i); apply Hin; left; auto|apply IHl; intros; apply Hin; right; auto]. }
          apply X. intros i Hi. apply in_seq in Hi. lia.
        - destruct cnt; [lia|]. cbn. discriminate.
        - rewrite Er. exists r. destruct Hr as [O V]. split; [reflexivity|]. split; [auto|]. rewrite V.
          transitivity (lin (fun j => val64 (nth j scalars []))).
          + apply lin_ext. intros j Hj. rewrite gs_len in Hj. unfold horner. rewrite map_map. apply Hc. auto.
          + unfold MSMProof.lin. f_equal. rewrite gs_len. apply nth_error_eq. intro j. destruct (Nat.lt_ge_cases j (length scalars)).
            * rewrite !nth_error_map. rewrite (nth_error_nth' (seq 0 (length scalars)) 0%nat) by (rewrite seq_length; lia).
              rewrite seq_nth by lia. rewrite (nth_error_nth' scalars []) by lia. reflexivity.
            * rewrite (proj2 (nth_error_None _ j)) by (rewrite map_length, seq_length; lia). symmetry. apply nth_error_None. rewrite map_length. lia. }
      destruct naf.
      - destruct (fill_all_spec scalars Hsc) as (dss & Ed & Fd). rewrite Ed. apply (FIN _ (naf_digit dss)).
        + intros i Hi. apply naf_window; auto.
        + intros j Hj. destruct (nth_error scalars j) as [s|] eqn:Es; [|apply nth_error_None in Es; lia].
          destruct (Forall2_nth_error _ _ _ _ _ Fd Es) as (ds & Ej & (G1 & G2 & _ & _)).
          unfold naf_digit. rewrite (nth_error_nth _ _ _ Ej), (nth_error_nth _ _ _ Es). rewrite <- G1. rewrite digit_sum_nth. exact G2.
      - apply (FIN _ plain_digit); [apply plain_window|apply plain_digit_sum].
    Qed.
  End Runs.
End Pippenger.
