(** The parallel adapter, the fixed-base table and GLV. *)
From Coq Require Import ZArith List Bool Lia Permutation.
From Verif Require Import BigIntModel BigIntSpec BigIntProof BigIntProof2 ParallelizeModel ParallelizeSpec ParallelizeProof ParallelizeExtra
  SemigroupSpec MSMModel MSMSpec MSMProof MSMProof2.
Import ListNotations.
Open Scope Z_scope.

Lemma fixed_step (v a : Z) (i n w mb : nat) :
  a + (v / 2 ^ Z.of_nat (i * w)) mod 2 ^ Z.of_nat (Nat.min w (mb - i * w)) * 2 ^ Z.of_nat (w * i) +
  2 ^ Z.of_nat (S i * w) * ((v / 2 ^ Z.of_nat (S i * w)) mod 2 ^ Z.of_nat (Nat.min (n * w) (mb - S i * w))) =
  a + 2 ^ Z.of_nat (i * w) * ((v / 2 ^ Z.of_nat (i * w)) mod 2 ^ Z.of_nat (Nat.min (S n * w) (mb - i * w))).
Proof.
  replace (S i * w)%nat with (i * w + w)%nat by lia. replace (S n * w)%nat with (n * w + w)%nat by lia. rewrite (Nat.mul_comm w i).
  generalize (i * w)%nat as o. intro o. generalize (n * w)%nat as l. intro l.
  destruct (Nat.le_gt_cases w (mb - o)) as [Hc|Hc].
  - replace (Nat.min w (mb - o)) with w by lia.
    replace (Nat.min (l + w) (mb - o)) with (w + Nat.min l (mb - (o + w)))%nat by lia.
    generalize (Nat.min l (mb - (o + w))) as m. intro m. rewrite !Nat2Z.inj_add, !Z.pow_add_r by lia.
    rewrite (Z.rem_mul_r (v / 2 ^ Z.of_nat o)) by (first [apply Z.pow_nonzero; lia|apply Z.pow_pos_nonneg; lia]).
    rewrite Z.div_div by (first [apply Z.pow_nonzero; lia|apply Z.pow_pos_nonneg; lia]). ring.
  - replace (mb - (o + w))%nat with 0%nat by lia. replace (Nat.min w (mb - o)) with (mb - o)%nat by lia.
    replace (Nat.min (l + w) (mb - o)) with (mb - o)%nat by lia. rewrite Nat.min_0_r. change (2 ^ Z.of_nat 0) with 1. rewrite Z.mod_1_r. ring.
Qed.

Section More.
  Context {G P B : Type} (mem : G -> Prop) (zero : G) (add : G -> G -> G) (opp : G -> G).
  Context (okp : P -> Prop) (vp : P -> G) (okb : B -> Prop) (vb : B -> G) (ops : bucket_ops P B).
  Variable HG : abelian_group mem zero add opp.
  Variable HC : computes_in mem zero add opp okp vp okb vb ops.
  Notation zmul := (zmul zero add opp).
  Notation msm := (msm zero add opp).

  Lemma vp_mem bases : Forall okp bases -> Forall mem (map vp bases).
  Proof. intro H. apply Forall_map. eapply Forall_impl; [|exact H]. intros p Hp. apply (ci_mem_p _ _ _ _ _ _ _ _ _ HC p Hp). Qed.

  (** ** The adapter *)
  Definition chunk_result naf orders mb bits bases scalars (c : Z * Z * Z) : option (option B) :=
    match c with (i, start, len) =>
      let window_bits := bits (Z.to_nat len) in
      pippenger_run ops naf (orders (Z.to_nat i) (windows_count mb window_bits)) mb window_bits
        (slice bases (Z.to_nat start) (Z.to_nat len)) (slice scalars (Z.to_nat start) (Z.to_nat len)) end.

  Lemma chunks_spec naf orders n mb bits : (forall i c, schedule c (orders i c)) -> (forall k, (1 <= bits k <= 62)%nat) -> (0 < mb <= 64 * n)%nat ->
    forall calls idx pos preb prescal bases scalars,
    Forall okp bases -> Forall (scalar_ok n mb) scalars -> length bases = length scalars -> length preb = length prescal ->
    Z.of_nat (length preb) = pos -> tiles idx pos calls (pos + Z.of_nat (length scalars)) ->
    exists rs, map (chunk_result naf orders mb bits (preb ++ bases) (prescal ++ scalars)) calls = map (fun r => Some (Some r)) rs /\
      Forall okb rs /\ forall t, okb t ->
        okb (fold_left (b_add_in_place ops) rs t) /\
        vb (fold_left (b_add_in_place ops) rs t) = add (vb t) (msm (map val64 scalars) (map vp bases)).
  Proof.
    intros Hord Hbits Hmb. induction calls as [|[[i s] len] calls IH]; intros idx pos preb prescal bases scalars Hokp Hsc HL HP Hpos HT; cbn [tiles] in HT.
    - exists []. split; [reflexivity|]. split; [constructor|]. intros t Ht. cbn [fold_left]. split; [auto|].
      destruct scalars; [|cbn in HT; lia]. cbn. symmetry. apply (add_zero_r mem zero add opp HG). apply (ci_mem_b _ _ _ _ _ _ _ _ _ HC t Ht).
    - destruct HT as (-> & -> & Hlen & HT). pose proof (tiles_le _ _ _ _ HT) as Hle.
      set (k := Z.to_nat len). assert (Hk : (k <= length scalars)%nat) by lia.
      assert (Eb : bases = firstn k bases ++ skipn k bases) by (symmetry; apply firstn_skipn).
      assert (Es : scalars = firstn k scalars ++ skipn k scalars) by (symmetry; apply firstn_skipn).
      assert (Lb : length (firstn k bases) = k) by (apply firstn_length_le; lia).
      assert (Ls : length (firstn k scalars) = k) by (apply firstn_length_le; lia).
      rewrite Eb in Hokp. apply Forall_app in Hokp. destruct Hokp as [Ok1 Ok2].
      rewrite Es in Hsc. apply Forall_app in Hsc. destruct Hsc as [Sc1 Sc2].
      destruct (IH (idx + 1) (pos + len) (preb ++ firstn k bases) (prescal ++ firstn k scalars) (skipn k bases) (skipn k scalars)) as (rs & ER & OR & FR); auto.
      { rewrite !skipn_length. lia. }
      { rewrite !app_length. lia. }
      { rewrite app_length. lia. }
      { rewrite skipn_length. replace (pos + len + Z.of_nat (length scalars - k)) with (pos + Z.of_nat (length scalars)) by lia. exact HT. }
      rewrite <- !app_assoc, <- Eb, <- Es in ER.
      assert (SB : slice (preb ++ bases) (Z.to_nat pos) k = firstn k bases).
      { unfold slice. replace (Z.to_nat pos) with (length preb) by lia. rewrite skipn_app, Nat.sub_diag, skipn_all. reflexivity. }
      assert (SS : slice (prescal ++ scalars) (Z.to_nat pos) k = firstn k scalars).
      { unfold slice. replace (Z.to_nat pos) with (length prescal) by lia. rewrite skipn_app, Nat.sub_diag, skipn_all. reflexivity. }
      destruct (pippenger_spec mem zero add opp okp vp okb vb ops HG HC (map vp (firstn k bases)) (vp_mem _ Ok1) (firstn k bases) (firstn k scalars) n mb
                  (bits k) Ok1 eq_refl ltac:(lia) Sc1 (Hbits k) Hmb naf (orders (Z.to_nat idx) (windows_count mb (bits k))) (Hord _ _)) as (r & E1 & O1 & V1).
      exists (r :: rs). split.
      { cbn [map]. f_equal; [|exact ER]. unfold chunk_result. fold k. rewrite SB, SS. exact E1. }
      split; [constructor; auto|]. intros t Ht. cbn [fold_left].
      destruct (ci_add_in_place _ _ _ _ _ _ _ _ _ HC t r Ht O1) as [O2 V2]. destruct (FR _ O2) as [O3 V3]. split; [exact O3|].
      rewrite V3, V2, V1. pose proof (ci_mem_b _ _ _ _ _ _ _ _ _ HC) as MB.
      pose proof (vp_mem _ Ok1) as M1. pose proof (vp_mem _ Ok2) as M2.
      rewrite <- (ag_assoc _ _ _ _ HG) by (try apply (msm_mem mem zero add opp HG); auto).
      rewrite <- (msm_app mem zero add opp HG) by (rewrite ?map_length; auto; lia).
      rewrite <- !map_app, <- Eb, <- Es. reflexivity.
  Qed.

  Theorem adapter_spec s naf orders threads n mb bits bases scalars :
    (forall i c, schedule c (orders i c)) -> (forall k, (1 <= bits k <= 62)%nat) -> (0 < mb <= 64 * n)%nat ->
    0 < threads -> 2 * Z.of_nat (length scalars) + threads < 2 ^ 64 ->
    Forall okp bases -> Forall (scalar_ok n mb) scalars -> length bases = length scalars ->
    exists r, adapter_run ops s naf orders threads mb bits bases scalars = Some (Some r) /\ okb r /\ vb r = msm (map val64 scalars) (map vp bases).
  Proof.
    intros Hord Hbits Hmb Ht Hsz Hokp Hsc HL.
    assert (D : exists r, pippenger_run ops naf (orders 0%nat (windows_count mb (bits (length scalars)))) mb (bits (length scalars)) bases scalars = Some (Some r) /\
      okb r /\ vb r = msm (map val64 scalars) (map vp bases)).
    { apply (pippenger_spec mem zero add opp okp vp okb vb ops HG HC (map vp bases) (vp_mem _ Hokp) bases scalars n mb); auto. }
    assert (C : exists r, (if negb (Nat.eqb (length bases) (length scalars)) then Some None
        else match scalars with
        | [] => Some (Some (b_zero ops))
        | _ =>
            let chunk := num_elements_per_thread threads (Z.of_nat (length scalars)) None in
            let results := map (chunk_result naf orders mb bits bases scalars) (chunk_calls (Z.of_nat (length scalars)) chunk) in
            if existsb (fun r => match r with None => true | _ => false end) results then None
            else if forallb (fun r => match r with Some (Some _) => true | _ => false end) results then
              Some (Some (fold_left (fun total r => match r with Some (Some v) => b_add_in_place ops total v | _ => total end) results (b_zero ops)))
            else Some None
        end) = Some (Some r) /\ okb r /\ vb r = msm (map val64 scalars) (map vp bases)).
    { rewrite HL, Nat.eqb_refl. cbn [negb]. destruct (ci_zero _ _ _ _ _ _ _ _ _ HC) as [O0 V0].
      destruct scalars as [|s0 sr] eqn:Esc.
      - exists (b_zero ops). split; [reflexivity|]. split; [auto|]. exact V0.
      - rewrite <- Esc in *. clear s0 sr Esc. cbv zeta.
        destruct (container_partition threads (Z.of_nat (length scalars)) None Ht ltac:(lia) Hsz) as [HT _].
        destruct (chunks_spec naf orders n mb bits Hord Hbits Hmb (chunk_calls (Z.of_nat (length scalars))
                    (num_elements_per_thread threads (Z.of_nat (length scalars)) None)) 0 0 [] [] bases scalars) as (rs & ER & OR & FR); auto.
        cbn [app] in ER. rewrite ER.
        assert (X1 : existsb (fun r : option (option B) => match r with None => true | _ => false end) (map (fun r => Some (Some r)) rs) = false)
          by (clear; induction rs; cbn; auto).
        assert (X2 : forallb (fun r : option (option B) => match r with Some (Some _) => true | _ => false end) (map (fun r => Some (Some r)) rs) = true)
          by (clear; induction rs; cbn; auto).
        rewrite X1, X2. destruct (FR _ O0) as [O1 V1].
        assert (X3 : forall t, fold_left (fun total (r : option (option B)) => match r with Some (Some v) => b_add_in_place ops total v | _ => total end)
                     (map (fun r => Some (Some r)) rs) t = fold_left (b_add_in_place ops) rs t) by (clear; induction rs; intro; cbn; auto).
        rewrite X3. eexists. split; [reflexivity|]. split; [exact O1|]. rewrite V1, V0.
        apply (ag_zero_l _ _ _ _ HG). apply (msm_mem mem zero add opp HG). apply vp_mem; auto. }
    destruct s; [exact D|exact D|exact C|exact C].
  Qed.

  (** ** Fixed base *)
  Definition Rb (g : G) (b : B) (z : Z) : Prop := okb b /\ vb b = zmul z g.
  Section Fixed.
    Variables (g : G).
    Hypothesis Hg : mem g.
    Notation Rg := (Rb g).
    Lemma Rb_add x y a b : Rg x a -> Rg y b -> Rg (b_add_in_place ops x y) (a + b).
    Proof.
      intros [O1 V1] [O2 V2]. destruct (ci_add_in_place _ _ _ _ _ _ _ _ _ HC x y O1 O2) as [O V]. split; auto.
      rewrite V, V1, V2. symmetry. apply (zmul_add mem zero add opp HG); auto.
    Qed.
    Lemma Rb_zero : Rg (b_zero ops) 0.
    Proof. destruct (ci_zero _ _ _ _ _ _ _ _ _ HC) as [O V]. split; auto. Qed.
    Lemma Rb_double x a : Rg x a -> Rg (b_double_in_place ops x) (2 * a).
    Proof.
      intros [O1 V1]. destruct (ci_double _ _ _ _ _ _ _ _ _ HC x O1) as [O V]. split; auto. rewrite V, V1.
      rewrite <- (zmul_add mem zero add opp HG) by auto. f_equal. lia.
    Qed.
    Lemma Rb_double_n : forall n x a, Rg x a -> Rg (double_n ops n x) (2 ^ Z.of_nat n * a).
    Proof.
      induction n as [|n IH]; intros x a H; cbn [double_n].
      - change (2 ^ Z.of_nat 0) with 1. rewrite Z.mul_1_l. exact H.
      - replace (2 ^ Z.of_nat (S n) * a) with (2 ^ Z.of_nat n * (2 * a)) by (rewrite Nat2Z.inj_succ, Z.pow_succ_r by lia; ring).
        apply IH. apply Rb_double. exact H.
    Qed.

    Lemma window_bases_spec w : forall n x a, Rg x a ->
      length (window_bases ops n w x) = n /\
      forall i b, nth_error (window_bases ops n w x) i = Some b -> Rg b (2 ^ Z.of_nat (w * i) * a).
    Proof.
      induction n as [|n IH]; intros x a H; cbn [window_bases length]; [split; [auto|]; intros [|i] b E; discriminate|].
      destruct (IH _ _ (Rb_double_n w x a H)) as [L N]. split; [lia|]. intros [|i] b E; cbn in E.
      - injection E as <-. rewrite Nat.mul_0_r. change (2 ^ Z.of_nat 0) with 1. rewrite Z.mul_1_l. exact H.
      - apply N in E. replace (2 ^ Z.of_nat (w * S i) * a) with (2 ^ Z.of_nat (w * i) * (2 ^ Z.of_nat w * a)); [exact E|].
        rewrite Z.mul_assoc, <- Z.pow_add_r by lia. do 2 f_equal. lia.
    Qed.

    Lemma fill_row_spec wb a : Rg wb a -> forall n j m row, Rg m (Z.of_nat j * a) -> (j + n <= length row)%nat ->
      (forall k b, (k < j)%nat -> nth_error row k = Some b -> Rg b (Z.of_nat k * a)) ->
      exists row', fill_row ops n j m wb row = Some row' /\ length row' = length row /\
        forall k b, (k < j + n)%nat -> nth_error row' k = Some b -> Rg b (Z.of_nat k * a).
    Proof.
      intros Hwb. induction n as [|n IH]; intros j m row Hm Hl Hr; cbn [fill_row].
      - exists row. split; [auto|]. split; [auto|]. intros k b Hk. apply Hr. lia.
      - destruct (Nat.ltb_spec j (length row)); [|lia].
        destruct (IH (S j) (b_add_in_place ops m wb) (set_nth j m row)) as (row' & E & L & N).
        + replace (Z.of_nat (S j) * a) with (Z.of_nat j * a + a) by lia. apply Rb_add; auto.
        + rewrite set_nth_length. lia.
        + intros k b Hk E. rewrite nth_error_set_nth in E by auto. destruct (Nat.eqb_spec k j) as [->|Nk]; [injection E as <-; auto|].
          apply Hr; [lia|auto].
        + rewrite set_nth_length in L. exists row'. split; [exact E|]. split; [exact L|]. intros k b Hk. apply N. lia.
    Qed.

    Lemma fill_rows_spec cnt ws lws : (lws <= ws)%nat -> forall bases i (a : nat -> Z),
      (forall k b, nth_error bases k = Some b -> Rg b (a (i + k)%nat)) ->
      exists rows, fill_rows ops bases i cnt ws lws = Some rows /\ length rows = length bases /\
        forall k row, nth_error rows k = Some row -> length row = ws /\
          forall j b, (j < if Nat.eqb (i + k) (cnt - 1) then lws else ws)%nat -> nth_error row j = Some b -> Rg b (Z.of_nat j * a (i + k)%nat).
    Proof.
      intros Hle. induction bases as [|wb bases IH]; intros i a H; cbn [fill_rows].
      - exists []. split; [auto|]. split; [auto|]. intros [|k] row E; discriminate.
      - pose proof (H 0%nat wb eq_refl) as H0. rewrite Nat.add_0_r in H0.
        destruct (fill_row_spec wb (a i) H0 (if Nat.eqb i (cnt - 1) then lws else ws) 0 (b_zero ops) (repeat (b_zero ops) ws)) as (row & E & L & N).
        + apply Rb_zero.
        + rewrite repeat_length. destruct (Nat.eqb i (cnt - 1)); lia.
        + intros. lia.
        + destruct (IH (S i) a) as (rows & E' & L' & N').
          { intros k b Ek. replace (S i + k)%nat with (i + S k)%nat by lia. apply H. exact Ek. }
          cbv zeta. rewrite E, E'. exists (row :: rows). split; [reflexivity|]. split; [cbn; lia|]. rewrite repeat_length in L.
          intros [|k] r Er; cbn in Er.
          * injection Er as <-. rewrite Nat.add_0_r. split; [auto|]. intros j b Hj Eb. apply N; auto.
          * replace (i + S k)%nat with (S i + k)%nat by lia. apply N'. exact Er.
    Qed.

    (** the digit read from the bit iterator *)
    Lemma window_digit_spec s nl mb w i : limbs64 nl s -> forall n off pos j, 0 <= j < 2 ^ Z.of_nat off ->
      (off + n = w)%nat -> pos = Nat.min (i * w + off) mb ->
      let r := window_digit s mb w i off n pos j in
      snd r = Nat.min (i * w + w) mb /\
      fst r = j + 2 ^ Z.of_nat off * ((val64 s / 2 ^ Z.of_nat (i * w + off)) mod 2 ^ Z.of_nat (Nat.min n (mb - (i * w + off)))).
    Proof.
      intros Hs. induction n as [|n IH]; intros off pos j Hj Hn Hpos; cbn [window_digit]; cbv zeta.
      - rewrite Nat.min_0_l. change (2 ^ Z.of_nat 0) with 1. rewrite Z.mod_1_r. cbn [fst snd]. split; [rewrite Hpos; f_equal; lia|lia].
      - pose proof (Z.pow_pos_nonneg 2 (Z.of_nat off) ltac:(lia) ltac:(lia)) as Pp.
        assert (P2 : 2 ^ Z.of_nat (S off) = 2 * 2 ^ Z.of_nat off) by (rewrite Nat2Z.inj_succ; apply Z.pow_succ_r; lia).
        destruct (Nat.ltb_spec (i * w + off) mb) as [Hlt|Hge].
        + rewrite (bi_test_bit_val nl s pos Hs). assert (Ep : pos = (i * w + off)%nat) by lia.
          set (bit := Z.testbit (val64 s) (Z.of_nat pos)).
          assert (Ej : (if bit then Z.lor j (2 ^ Z.of_nat off) else j) = j + 2 ^ Z.of_nat off * Z.b2z bit).
          { destruct bit; cbn [Z.b2z]; [|lia]. rewrite Z.mul_1_r.
            rewrite <- Z.lxor_lor; [rewrite <- Z.add_nocarry_lxor|]; try reflexivity;
            (apply Z.bits_inj'; intros k Hk; rewrite Z.land_spec, Z.bits_0, Z.pow2_bits_eqb by lia;
             destruct (Z.eqb_spec (Z.of_nat off) k); [|apply andb_false_r]; subst k; rewrite andb_true_r;
             apply Z.testbit_false; [lia|]; rewrite Z.div_small by lia; reflexivity). }
          rewrite Ej. destruct (IH (S off) (S pos) (j + 2 ^ Z.of_nat off * Z.b2z bit)) as [I1 I2].
          { rewrite P2. destruct bit; cbn [Z.b2z]; lia. }
          { lia. }
          { lia. }
          split; [exact I1|]. rewrite I2. replace (mb - (i * w + off))%nat with (S (mb - (i * w + S off))) by (revert Hlt; clear; lia). rewrite <- Nat.succ_min_distr.
          set (m := Nat.min n (mb - (i * w + S off))). rewrite P2.
          assert (Em : 2 ^ Z.of_nat (S m) = 2 * 2 ^ Z.of_nat m) by (rewrite Nat2Z.inj_succ; apply Z.pow_succ_r; lia). rewrite Em.
          rewrite Z.rem_mul_r by (try apply Z.pow_pos_nonneg; lia).
          rewrite Z.div_div by (first [apply Z.pow_nonzero; [discriminate|apply Nat2Z.is_nonneg]|reflexivity]).
          replace (2 ^ Z.of_nat (i * w + off) * 2) with (2 ^ Z.of_nat (i * w + S off)) by
            (replace (i * w + S off)%nat with (S (i * w + off)) by lia; rewrite Nat2Z.inj_succ, Z.pow_succ_r by lia; ring).
          replace ((val64 s / 2 ^ Z.of_nat (i * w + off)) mod 2) with (Z.b2z bit) by (unfold bit; rewrite Ep, Z.testbit_spec' by lia; reflexivity).
          ring.
        + replace (mb - (i * w + off))%nat with 0%nat by lia. rewrite Nat.min_0_r. change (2 ^ Z.of_nat 0) with 1. rewrite Z.mod_1_r, Z.mul_0_r, Z.add_0_r.
          destruct (IH (S off) pos j) as [I1 I2]; [lia|lia|lia|]. split; [exact I1|]. rewrite I2.
          replace (mb - (i * w + S off))%nat with 0%nat by lia. rewrite Nat.min_0_r. change (2 ^ Z.of_nat 0) with 1. rewrite Z.mod_1_r. ring.
    Qed.

    Definition table_ok (mb w : nat) (rows : list (list B)) : Prop :=
      length rows = windows_count mb w /\
      forall i row, nth_error rows i = Some row -> length row = Nat.pow 2 w /\
        forall j b, (j < Nat.pow 2 (Nat.min w (mb - i * w)))%nat -> nth_error row j = Some b -> Rg b (Z.of_nat j * 2 ^ Z.of_nat (w * i)).

    Lemma update_window_table_spec mb w base : (0 < w)%nat -> (0 < mb)%nat -> okb base -> vb base = g ->
      exists rows, update_window_table ops mb w base = Some rows /\ table_ok mb w rows.
    Proof.
      intros Hw Hmb Ob Vb. destruct (windows_count_spec mb w Hw Hmb) as (C0 & C1 & C2). unfold update_window_table. cbv zeta.
      assert (Rbase : Rg base 1) by (split; auto; rewrite Vb; symmetry; apply (zmul_1 mem zero add opp HG); auto).
      unfold table_ok. set (cnt := windows_count mb w) in *. destruct (window_bases_spec w cnt base 1 Rbase) as [WL WN]. clearbody cnt.
      destruct (fill_rows_spec cnt (Nat.pow 2 w) (Nat.pow 2 (mb - (cnt - 1) * w))) with (bases := window_bases ops cnt w base) (i := 0%nat)
        (a := fun i => 2 ^ Z.of_nat (w * i)) as (rows & E & L & N).
      { apply Nat.pow_le_mono_r; [lia|]. destruct cnt as [|c]; [lia|]. rewrite Nat.sub_succ, Nat.sub_0_r in *. lia. }
      { intros k b Hk. cbn [Nat.add]. apply WN in Hk. rewrite Z.mul_1_r in Hk. exact Hk. }
      exists rows. split; [exact E|]. split; [lia|]. intros i row Ei. destruct (N i row Ei) as [L' N']. split; [exact L'|].
      intros j b Hj Eb. cbn [Nat.add] in N'. apply N'; auto. assert (Hi : (i < cnt)%nat) by (rewrite <- WL, <- L; apply nth_error_Some; congruence).
      destruct (Nat.eqb_spec i (cnt - 1)) as [->|Ni].
      - eapply Nat.lt_le_trans; [exact Hj|]. apply Nat.pow_le_mono_r; lia.
      - eapply Nat.lt_le_trans; [exact Hj|]. apply Nat.pow_le_mono_r; lia.
    Qed.

    Lemma fixed_loop_spec s nl mb w rows : limbs64 nl s -> (0 < w)%nat -> table_ok mb w rows -> 0 <= val64 s ->
      forall n i ret a, (i + n = windows_count mb w)%nat -> Rg ret a ->
      exists r, fixed_base_loop ops s mb w rows n i (Nat.min (i * w) mb) ret = Some r /\
        Rg r (a + 2 ^ Z.of_nat (i * w) * ((val64 s / 2 ^ Z.of_nat (i * w)) mod 2 ^ Z.of_nat (Nat.min (n * w) (mb - i * w)))).
    Proof.
      intros Hs Hw [TL TN] Hv. induction n as [|n IH]; intros i ret a Hi Hr; cbn [fixed_base_loop].
      - exists ret. split; [reflexivity|]. cbn [Nat.mul Nat.min]. change (2 ^ Z.of_nat 0) with 1. rewrite Z.mod_1_r, Z.mul_0_r, Z.add_0_r. exact Hr.
      - destruct (window_digit_spec s nl mb w i Hs w 0 (Nat.min (i * w) mb) 0) as [D1 D2]; [change (2 ^ Z.of_nat 0) with 1; lia|lia|f_equal; lia|].
        cbv zeta in D1, D2. destruct (window_digit s mb w i 0 w (Nat.min (i * w) mb) 0) as [j pos]. cbn [fst snd] in D1, D2.
        change (2 ^ Z.of_nat 0) with 1 in D2. rewrite Z.mul_1_l, Z.add_0_l, Nat.add_0_r in D2.
        destruct (nth_error rows i) as [row|] eqn:Er; [|exfalso; apply nth_error_None in Er; rewrite TL in Er; revert Er Hi; clear; lia].
        destruct (TN i row Er) as [RL RN]. set (m1 := Nat.min w (mb - i * w)) in *.
        assert (Hj : 0 <= j < 2 ^ Z.of_nat m1) by (rewrite D2; apply Z.mod_pos_bound, Z.pow_pos_nonneg; lia).
        assert (Hjn : (Z.to_nat j < Nat.pow 2 m1)%nat).
        { apply Nat2Z.inj_lt. rewrite Z2Nat.id by apply Hj. rewrite Nat2Z.inj_pow. apply Hj. }
        assert (Hm1 : (Nat.pow 2 m1 <= Nat.pow 2 w)%nat) by (apply Nat.pow_le_mono_r; [discriminate|apply Nat.le_min_l]).
        destruct (nth_error row (Z.to_nat j)) as [x|] eqn:Ex; [|exfalso; apply nth_error_None in Ex; rewrite RL in Ex; revert Ex Hm1 Hjn; clear; lia].
        pose proof (RN _ _ Hjn Ex) as Rx. rewrite Z2Nat.id in Rx by apply Hj.
        destruct (IH (S i) (b_add_in_place ops ret x) (a + j * 2 ^ Z.of_nat (w * i))) as (r & E & HR); [revert Hi; clear; lia|apply Rb_add; auto|].
        rewrite D1. replace (i * w + w)%nat with (S i * w)%nat by (clear; lia). exists r. split; [exact E|].
        destruct HR as [O V]. split; [exact O|]. rewrite V. f_equal. rewrite D2. apply fixed_step.
    Qed.

    Theorem fixed_base_spec n mb w rows s : (0 < w)%nat -> (0 < mb)%nat -> table_ok mb w rows -> scalar_ok n mb s ->
      exists r, fixed_base_scalar_mul ops mb w rows s = Some r /\ okb r /\ vb r = zmul (val64 s) g.
    Proof.
      intros Hw Hmb HT [Hs Hv]. destruct (windows_count_spec mb w Hw Hmb) as (C0 & C1 & C2). pose proof (val_bound 64 n s ltac:(lia) Hs) as Hb.
      destruct (fixed_loop_spec s n mb w rows Hs Hw HT ltac:(lia) (windows_count mb w) 0 (b_zero ops) 0 ltac:(lia) Rb_zero) as (r & E & O & V).
      exists r. split; [exact E|]. split; [exact O|]. rewrite V. f_equal. cbn [Nat.mul]. change (2 ^ Z.of_nat 0) with 1. rewrite Z.div_1_r, Z.mul_1_l, Z.add_0_l.
      rewrite Nat.sub_0_r, Nat.min_r by lia. apply Z.mod_small. lia.
    Qed.

    Theorem fixed_base_run_spec n mb w rows scalars outputs order : (0 < w)%nat -> (0 < mb)%nat -> table_ok mb w rows ->
      Forall (scalar_ok n mb) scalars -> length scalars = length outputs -> schedule (length scalars) order ->
      exists rs, fixed_base_run ops order mb w rows scalars outputs = Some (Some rs) /\ Forall okb rs /\ map vb rs = map (fun s => zmul (val64 s) g) scalars.
    Proof.
      intros Hw Hmb HT Hsc HL Ho. unfold fixed_base_run. rewrite HL, Nat.eqb_refl. cbn [negb].
      set (f := fun i => match nth_error scalars i with None => None | Some s => fixed_base_scalar_mul ops mb w rows s end).
      set (v := fun i => match f i with Some x => x | None => b_zero ops end).
      assert (Hf : forall i, (i < length scalars)%nat -> f i = Some (v i) /\ okb (v i) /\ vb (v i) = zmul (val64 (nth i scalars [])) g).
      { intros i Hi. unfold v, f. rewrite (nth_error_nth' scalars [] Hi). rewrite Forall_forall in Hsc.
        destruct (fixed_base_spec n mb w rows (nth i scalars []) Hw Hmb HT (Hsc _ (nth_In _ _ Hi))) as (r & E & O & V). rewrite E. auto. }
      rewrite (run_windows_schedule (length scalars) order f v outputs Ho (eq_sym HL) (fun i Hi => proj1 (Hf i Hi))).
      eexists. split; [reflexivity|]. split.
      - apply Forall_map. apply Forall_forall. intros i Hi. apply in_seq in Hi. apply Hf. lia.
      - rewrite map_map. apply nth_error_eq. intro j. destruct (Nat.lt_ge_cases j (length scalars)) as [Hj|Hj].
        + rewrite !nth_error_map. rewrite (nth_error_nth' (seq 0 (length scalars)) 0%nat) by (rewrite seq_length; lia).
          rewrite seq_nth by lia. rewrite (nth_error_nth' scalars [] Hj). cbn [option_map Nat.add]. f_equal. apply Hf. exact Hj.
        + rewrite (proj2 (nth_error_None _ j)) by (rewrite map_length, seq_length; lia). symmetry. apply nth_error_None. rewrite map_length. lia.
    Qed.
  End Fixed.
End More.

(** ** GLV *)
Lemma glv_congruence c r k lambda : r <> 0 -> (r | n11 c + lambda * n12 c) -> (r | n21 c + lambda * n22 c) ->
  let k1k2 := glv_decompose c r k in (r | fst k1k2 + lambda * snd k1k2 - k).
Proof.
  intros Hr H1 H2. cbv zeta. unfold glv_decompose. cbv zeta. cbn [fst snd]. set (b1 := Z.quot (k * n22 c) r). set (b2 := Z.quot (k * - n12 c) r).
  replace (k - (b1 * n11 c + b2 * n21 c) + lambda * - (b1 * n12 c + b2 * n22 c) - k) with
    (- b1 * (n11 c + lambda * n12 c) + - b2 * (n21 c + lambda * n22 c)) by ring.
  apply Z.divide_add_r; apply Z.divide_mul_r; auto.
Qed.

Lemma quot_error a r : 0 < r -> Z.abs (a - r * Z.quot a r) < r.
Proof. intro Hr. pose proof (Z.quot_rem a r ltac:(lia)). pose proof (Z.rem_bound_abs a r ltac:(lia)). replace (a - r * Z.quot a r) with (Z.rem a r) by lia. lia. Qed.

Lemma glv_bounds c r k : 0 < r -> n11 c * n22 c - n12 c * n21 c = r ->
  let k1k2 := glv_decompose c r k in
  Z.abs (fst k1k2) <= Z.abs (n11 c) + Z.abs (n21 c) /\ Z.abs (snd k1k2) <= Z.abs (n12 c) + Z.abs (n22 c).
Proof.
  intros Hr D. cbv zeta. unfold glv_decompose. cbv zeta. cbn [fst snd].
  pose proof (quot_error (k * n22 c) r Hr) as E1. pose proof (quot_error (k * - n12 c) r Hr) as E2.
  set (b1 := Z.quot (k * n22 c) r) in *. set (b2 := Z.quot (k * - n12 c) r) in *.
  set (e1 := k * n22 c - r * b1) in *. set (e2 := k * - n12 c - r * b2) in *.
  assert (X : forall x y, Z.abs (e1 * x + e2 * y) <= r * (Z.abs x + Z.abs y)).
  { intros x y. eapply Z.le_trans; [apply Z.abs_triangle|]. rewrite !Z.abs_mul. revert E1 E2. generalize (Z.abs e1) (Z.abs e2). clear. intros u v Hu Hv. pose proof (Z.abs_nonneg x). pose proof (Z.abs_nonneg y).
    rewrite Z.mul_add_distr_l. apply Z.add_le_mono; apply Z.mul_le_mono_nonneg_r; lia. }
  assert (A1 : r * (k - (b1 * n11 c + b2 * n21 c)) = e1 * n11 c + e2 * n21 c).
  { unfold e1, e2. rewrite <- D. ring. }
  assert (A2 : r * - (b1 * n12 c + b2 * n22 c) = e1 * n12 c + e2 * n22 c).
  { unfold e1, e2. rewrite <- D. ring. }
  split.
  - specialize (X (n11 c) (n21 c)). rewrite <- A1, Z.abs_mul in X. rewrite (Z.abs_eq r) in X by (revert Hr; clear; lia). apply (Zmult_le_reg_l _ _ r Hr) || apply (Z.mul_le_mono_pos_l _ _ r Hr). exact X.
  - specialize (X (n12 c) (n22 c)). rewrite <- A2, Z.abs_mul in X. rewrite (Z.abs_eq r) in X by (revert Hr; clear; lia). apply (Zmult_le_reg_l _ _ r Hr) || apply (Z.mul_le_mono_pos_l _ _ r Hr). exact X.
Qed.

Lemma mpz_num_bits_bound x : 0 <= x -> x < 2 ^ Z.of_nat (mpz_num_bits x).
Proof.
  intro Hx. unfold mpz_num_bits. destruct (Z.eqb_spec x 0) as [->|N]; [cbn; lia|].
  pose proof (Z.log2_spec x ltac:(lia)) as [_ H]. eapply Z.lt_le_trans; [exact H|]. apply Z.pow_le_mono_r; [lia|].
  pose proof (Z.log2_nonneg x). pose proof (Z.div_mod (Z.log2 x) 64 ltac:(lia)). pose proof (Z.mod_pos_bound (Z.log2 x) 64 ltac:(lia)).
  pose proof (Z.div_pos (Z.log2 x) 64 ltac:(lia) ltac:(lia)). lia.
Qed.

Lemma top_bit k n : Z.div k (2 ^ Z.of_nat n) = 2 * Z.div k (2 ^ Z.of_nat (S n)) + Z.b2z (Z.testbit k (Z.of_nat n)).
Proof.
  rewrite Z.testbit_spec' by lia. rewrite Nat2Z.inj_succ, Z.pow_succ_r by lia. rewrite (Z.mul_comm 2 (2 ^ _)).
  rewrite <- Z.div_div by (try apply Z.pow_nonzero; lia). apply Z.div_mod. lia.
Qed.

Section GLVProof.
  Context {G P B : Type} (mem : G -> Prop) (zero : G) (add : G -> G -> G) (opp : G -> G).
  Context (okp : P -> Prop) (vp : P -> G) (okb : B -> Prop) (vb : B -> G) (ops : bucket_ops P B).
  Variable HG : abelian_group mem zero add opp.
  Variable HC : computes_in mem zero add opp okp vp okb vb ops.
  Notation zmul := (zmul zero add opp).

  Section Loop.
    Variables (k1 k2 : Z) (b1 b2 : P) (b1b2 : B).
    Hypothesis O1 : okp b1.
    Hypothesis O2 : okp b2.
    Hypothesis O12 : okb b1b2.
    Hypothesis V12 : vb b1b2 = add (vp b1) (vp b2).
    Let g1 := vp b1.
    Let g2 := vp b2.
    Let M1 : mem g1 := ci_mem_p _ _ _ _ _ _ _ _ _ HC b1 O1.
    Let M2 : mem g2 := ci_mem_p _ _ _ _ _ _ _ _ _ HC b2 O2.
    Definition comb (x y : Z) : G := add (zmul x g1) (zmul y g2).
    Lemma comb_mem x y : mem (comb x y).
    Proof. apply (ag_add _ _ _ _ HG); apply (zmul_mem mem zero add opp HG); auto. Qed.
    Lemma comb_add x y x' y' : add (comb x y) (comb x' y') = comb (x + x') (y + y').
    Proof. unfold comb. rewrite !(zmul_add mem zero add opp HG) by auto. apply (add_swap mem zero add opp HG); apply (zmul_mem mem zero add opp HG); auto. Qed.

    (** One step on [ret] that holds x * g1 + y * g2. *)
    Lemma glv_step bit1 bit2 ret x y : okb ret -> vb ret = comb x y ->
      let ret := b_double_in_place ops ret in
      let ret := if bit1 : bool then if bit2 : bool then b_add_in_place ops ret b1b2 else b_madd_in_place ops ret b1
                 else if bit2 then b_madd_in_place ops ret b2 else ret in
      okb ret /\ vb ret = comb (2 * x + Z.b2z bit1) (2 * y + Z.b2z bit2).
    Proof.
      intros O V. cbv zeta. destruct (ci_double _ _ _ _ _ _ _ _ _ HC ret O) as [Od Vd]. rewrite V, comb_add in Vd.
      assert (U1 : comb 1 0 = g1) by (unfold comb; rewrite (zmul_1 mem zero add opp HG) by auto; apply (add_zero_r mem zero add opp HG); auto).
      assert (U2 : comb 0 1 = g2) by (unfold comb; rewrite (zmul_1 mem zero add opp HG) by auto; apply (ag_zero_l _ _ _ _ HG); auto).
      assert (U3 : comb 1 1 = add g1 g2) by (unfold comb; rewrite !(zmul_1 mem zero add opp HG) by auto; reflexivity).
      destruct bit1, bit2; cbn [Z.b2z].
      - destruct (ci_add_in_place _ _ _ _ _ _ _ _ _ HC _ b1b2 Od O12) as [Oa Va]. split; auto. rewrite Va, Vd, V12.
        fold g1 g2. rewrite <- U3, comb_add. f_equal; lia.
      - destruct (ci_madd _ _ _ _ _ _ _ _ _ HC _ b1 Od O1) as [Oa Va]. split; auto. rewrite Va, Vd. fold g1. rewrite <- U1, comb_add. f_equal; lia.
      - destruct (ci_madd _ _ _ _ _ _ _ _ _ HC _ b2 Od O2) as [Oa Va]. split; auto. rewrite Va, Vd. fold g2. rewrite <- U2, comb_add. f_equal; lia.
      - split; auto. rewrite Vd. f_equal; lia.
    Qed.

    (** With the iterators aligned. *)
    Lemma glv_loop_aligned : forall n skip ret, okb ret -> vb ret = comb (k1 / 2 ^ Z.of_nat n) (k2 / 2 ^ Z.of_nat n) ->
      (skip = true -> k1 / 2 ^ Z.of_nat n = 0 /\ k2 / 2 ^ Z.of_nat n = 0) ->
      okb (glv_loop ops k1 k2 b1 b2 b1b2 n n skip ret) /\ vb (glv_loop ops k1 k2 b1 b2 b1b2 n n skip ret) = comb k1 k2.
    Proof.
      induction n as [|n IH]; intros skip ret O V Hs; cbn [glv_loop].
      - split; [auto|]. rewrite V. change (2 ^ Z.of_nat 0) with 1. rewrite !Z.div_1_r. reflexivity.
      - set (bit1 := Z.testbit k1 (Z.of_nat n)). set (bit2 := Z.testbit k2 (Z.of_nat n)). cbv zeta. cbn [pred].
        pose proof (top_bit k1 n) as T1. pose proof (top_bit k2 n) as T2. fold bit1 in T1. fold bit2 in T2.
        destruct (skip && negb bit1 && negb bit2)%bool eqn:E.
        + apply andb_true_iff in E. destruct E as [E E2]. apply andb_true_iff in E. destruct E as [E0 E1].
          apply negb_true_iff in E1, E2. rewrite E1 in T1. rewrite E2 in T2. cbn [Z.b2z] in T1, T2. destruct (Hs E0) as [H1 H2]. rewrite H1 in *. rewrite H2 in *.
          apply IH; [auto| |discriminate]. rewrite T1, T2. exact V.
        + destruct (glv_step bit1 bit2 ret _ _ O V) as [O' V']. cbv zeta in O', V'. apply IH; [exact O'| |discriminate].
          rewrite T1, T2. exact V'.
    Qed.
    (** When k2 is zero its iterator does not matter. *)
    Lemma glv_loop_k2_zero : k2 = 0 -> forall n n2 skip ret, okb ret -> vb ret = comb (k1 / 2 ^ Z.of_nat n) 0 ->
      (skip = true -> k1 / 2 ^ Z.of_nat n = 0) ->
      okb (glv_loop ops k1 k2 b1 b2 b1b2 n n2 skip ret) /\ vb (glv_loop ops k1 k2 b1 b2 b1b2 n n2 skip ret) = comb k1 0.
    Proof.
      intros K2. induction n as [|n IH]; intros n2 skip ret O V Hs; cbn [glv_loop].
      - split; [auto|]. rewrite V. change (2 ^ Z.of_nat 0) with 1. rewrite !Z.div_1_r. reflexivity.
      - set (bit1 := Z.testbit k1 (Z.of_nat n)).
        assert (B2 : match n2 with O => false | S i2 => Z.testbit k2 (Z.of_nat i2) end = false) by (destruct n2; [reflexivity|rewrite K2; apply Z.bits_0]).
        rewrite B2. cbv zeta. pose proof (top_bit k1 n) as T1. fold bit1 in T1.
        destruct (skip && negb bit1 && negb false)%bool eqn:E.
        + apply andb_true_iff in E. destruct E as [E _]. apply andb_true_iff in E. destruct E as [E0 E1].
          apply negb_true_iff in E1. rewrite E1 in T1. cbn [Z.b2z] in T1. rewrite (Hs E0) in *.
          apply IH; [auto| |discriminate]. rewrite T1. exact V.
        + destruct (glv_step bit1 false ret _ _ O V) as [O' V']. cbv zeta in O', V'. apply IH; [exact O'| |discriminate].
          rewrite T1. exact V'.
    Qed.
  End Loop.

  Variables (add_points : P -> P -> B) (endo : P -> P) (c : glv_coeffs) (r lambda : Z).
  Hypothesis Hadd : forall p q, okp p -> okp q -> okb (add_points p q) /\ vb (add_points p q) = add (vp p) (vp q).
  Hypothesis Hr : 0 < r.
  Hypothesis Hrow1 : (r | n11 c + lambda * n12 c).
  Hypothesis Hrow2 : (r | n21 c + lambda * n22 c).

  Theorem glv_mul_spec p k : okp p -> okp (endo p) -> vp (endo p) = zmul lambda (vp p) -> zmul r (vp p) = zero ->
    (let k1k2 := glv_decompose c r k in mpz_num_bits (Z.abs (fst k1k2)) = mpz_num_bits (Z.abs (snd k1k2)) \/ snd k1k2 = 0) ->
    okb (glv_mul ops add_points endo c r p k) /\ vb (glv_mul ops add_points endo c r p k) = zmul k (vp p).
  Proof.
    intros Op Oe Ve Vr Hb. unfold glv_mul. cbv zeta in *. pose proof (glv_congruence c r k lambda ltac:(lia) Hrow1 Hrow2) as HK. cbv zeta in HK.
    destruct (glv_decompose c r k) as [k1 k2]. cbn [fst snd] in *.
    set (b1 := if k1 <? 0 then b_neg_point ops p else p). set (b2 := if k2 <? 0 then b_neg_point ops (endo p) else endo p).
    pose proof (ci_mem_p _ _ _ _ _ _ _ _ _ HC p Op) as Mp. pose proof (ci_mem_p _ _ _ _ _ _ _ _ _ HC _ Oe) as Me.
    assert (B1 : okp b1 /\ zmul (Z.abs k1) (vp b1) = zmul k1 (vp p)).
    { unfold b1. destruct (Z.ltb_spec k1 0) as [Hn|Hn].
      - destruct (ci_neg _ _ _ _ _ _ _ _ _ HC p Op) as [On Vn]. split; auto. rewrite Vn, Z.abs_neq by lia.
        replace (opp (vp p)) with (zmul (-1) (vp p)); [rewrite <- (zmul_mul mem zero add opp HG) by auto; f_equal; lia|].
        change (-1) with (- (1)). rewrite (zmul_opp mem zero add opp HG), (zmul_1 mem zero add opp HG) by auto. reflexivity.
      - split; auto. rewrite Z.abs_eq by lia. reflexivity. }
    assert (B2 : okp b2 /\ zmul (Z.abs k2) (vp b2) = zmul k2 (vp (endo p))).
    { unfold b2. destruct (Z.ltb_spec k2 0) as [Hn|Hn].
      - destruct (ci_neg _ _ _ _ _ _ _ _ _ HC _ Oe) as [On Vn]. split; auto. rewrite Vn, Z.abs_neq by lia.
        replace (opp (vp (endo p))) with (zmul (-1) (vp (endo p))); [rewrite <- (zmul_mul mem zero add opp HG) by auto; f_equal; lia|].
        change (-1) with (- (1)). rewrite (zmul_opp mem zero add opp HG), (zmul_1 mem zero add opp HG) by auto. reflexivity.
      - split; auto. rewrite Z.abs_eq by lia. reflexivity. }
    destruct B1 as [O1 E1], B2 as [O2 E2]. destruct (Hadd b1 b2 O1 O2) as [O12 V12]. clearbody b1 b2.
    destruct (ci_zero _ _ _ _ _ _ _ _ _ HC) as [O0 V0].
    assert (Z0 : forall x, 0 <= x -> x / 2 ^ Z.of_nat (mpz_num_bits x) = 0).
    { intros x Hx. apply Z.div_small. pose proof (mpz_num_bits_bound x Hx). lia. }
    assert (C0 : comb b1 b2 0 0 = zero) by (unfold comb; cbn; apply (ag_zero_l _ _ _ _ HG), (ag_zero _ _ _ _ HG)).
    assert (FIN : zmul (k1 + lambda * k2) (vp p) = zmul k (vp p)).
    { destruct HK as [q Hq]. replace (k1 + lambda * k2) with (k + q * r) by lia. rewrite (zmul_add mem zero add opp HG) by auto.
      rewrite (zmul_mul mem zero add opp HG q r) by auto. rewrite Vr, (zmul_zero mem zero add opp HG).
      apply (add_zero_r mem zero add opp HG). apply (zmul_mem mem zero add opp HG); auto. }
    assert (VAL : comb b1 b2 (Z.abs k1) (Z.abs k2) = zmul k (vp p)).
    { unfold comb. rewrite E1, E2, Ve. rewrite <- (zmul_mul mem zero add opp HG) by auto. rewrite <- (zmul_add mem zero add opp HG) by auto.
      rewrite <- FIN. f_equal. lia. }
    destruct Hb as [Hb|Hb].
    - rewrite <- Hb. destruct (glv_loop_aligned (Z.abs k1) (Z.abs k2) b1 b2 (add_points b1 b2) O1 O2 O12 V12 (mpz_num_bits (Z.abs k1)) true (b_zero ops)) as [Of Vf]; auto.
      + rewrite V0, Z0 by lia. rewrite Hb at 1. rewrite Z0 by lia. symmetry. exact C0.
      + intros _. split; [apply Z0; lia|]. rewrite Hb. apply Z0; lia.
      + split; [exact Of|]. rewrite Vf. exact VAL.
    - subst k2. destruct (glv_loop_k2_zero (Z.abs k1) (Z.abs 0) b1 b2 (add_points b1 b2) O1 O2 O12 V12 eq_refl (mpz_num_bits (Z.abs k1)) (mpz_num_bits (Z.abs 0)) true (b_zero ops)) as [Of Vf]; auto.
      + rewrite V0, Z0 by lia. symmetry. exact C0.
      + intros _. apply Z0; lia.
      + split; [exact Of|]. rewrite Vf. exact VAL.
  Qed.

  (** What the loop computes in general: k2 is read shifted by the difference of the bit counts. *)
  Lemma glv_loop_shift k1 k2 b1 b2 b12 : forall n1 n2 skip ret,
    glv_loop ops k1 k2 b1 b2 b12 n1 n2 skip ret = glv_loop ops k1 (Z.shiftl k2 (Z.of_nat n1 - Z.of_nat n2)) b1 b2 b12 n1 n1 skip ret.
  Proof.
    intros n1 n2. remember (Z.shiftl k2 (Z.of_nat n1 - Z.of_nat n2)) as k2' eqn:Ek.
    assert (Hb : forall j, (j < n1)%nat -> (if (j + n2 <? n1)%nat then false else Z.testbit k2 (Z.of_nat (j + n2 - n1))) = Z.testbit k2' (Z.of_nat j)).
    { intros j Hj. rewrite Ek, Z.shiftl_spec by lia. destruct (Nat.ltb_spec (j + n2) n1).
      - rewrite Z.testbit_neg_r by lia. reflexivity.
      - f_equal. lia. }
    clear Ek.
    assert (GEN : forall m m2 skip ret, (m <= n1)%nat -> m2 = (m + n2 - n1)%nat -> glv_loop ops k1 k2 b1 b2 b12 m m2 skip ret = glv_loop ops k1 k2' b1 b2 b12 m m skip ret).
    { induction m as [|m IH]; intros m2 skip ret Hm E; [reflexivity|]. cbn [glv_loop].
      assert (E2 : match m2 with O => false | S i2 => Z.testbit k2 (Z.of_nat i2) end = Z.testbit k2' (Z.of_nat m)).
      { rewrite <- (Hb m) by lia. destruct m2 as [|i2]; destruct (Nat.ltb_spec (m + n2) n1); try lia; try reflexivity. do 2 f_equal. lia. }
      rewrite E2. cbn [pred]. destruct (skip && negb (Z.testbit k1 (Z.of_nat m)) && negb (Z.testbit k2' (Z.of_nat m)))%bool; apply IH; lia. }
    intros skip ret. apply GEN; lia.
  Qed.
  Theorem glv_mul_value p k : okp p -> okp (endo p) -> vp (endo p) = zmul lambda (vp p) ->
    let k1 := fst (glv_decompose c r k) in let k2 := snd (glv_decompose c r k) in
    let d := Z.of_nat (mpz_num_bits (Z.abs k1)) - Z.of_nat (mpz_num_bits (Z.abs k2)) in
    okb (glv_mul ops add_points endo c r p k) /\
    vb (glv_mul ops add_points endo c r p k) = zmul (k1 + lambda * (Z.sgn k2 * Z.shiftl (Z.abs k2) d)) (vp p).
  Proof.
    intros Op Oe Ve. unfold glv_mul. cbv zeta. destruct (glv_decompose c r k) as [k1 k2]. cbn [fst snd].
    set (b1 := if k1 <? 0 then b_neg_point ops p else p). set (b2 := if k2 <? 0 then b_neg_point ops (endo p) else endo p).
    pose proof (ci_mem_p _ _ _ _ _ _ _ _ _ HC p Op) as Mp. pose proof (ci_mem_p _ _ _ _ _ _ _ _ _ HC _ Oe) as Me.
    assert (NEG : forall g, mem g -> opp g = zmul (-1) g).
    { intros g Mg. change (-1) with (- (1)). rewrite (zmul_opp mem zero add opp HG), (zmul_1 mem zero add opp HG) by auto. reflexivity. }
    assert (B1 : okp b1 /\ zmul (Z.abs k1) (vp b1) = zmul k1 (vp p)).
    { unfold b1. destruct (Z.ltb_spec k1 0) as [Hn|Hn].
      - destruct (ci_neg _ _ _ _ _ _ _ _ _ HC p Op) as [On Vn]. split; auto. rewrite Vn, NEG by auto. rewrite <- (zmul_mul mem zero add opp HG) by auto. f_equal. lia.
      - split; auto. rewrite Z.abs_eq by lia. reflexivity. }
    assert (B2 : okp b2 /\ forall x, 0 <= x -> (k2 = 0 -> x = 0) -> zmul x (vp b2) = zmul (Z.sgn k2 * x) (vp (endo p))).
    { unfold b2. destruct (Z.ltb_spec k2 0) as [Hn|Hn].
      - destruct (ci_neg _ _ _ _ _ _ _ _ _ HC _ Oe) as [On Vn]. split; auto. intros x _ _. rewrite Vn, NEG by auto. rewrite <- (zmul_mul mem zero add opp HG) by auto.
        f_equal. rewrite Z.sgn_neg by exact Hn. ring.
      - split; auto. intros x Hx H0. f_equal. destruct (Z.eq_dec k2 0) as [->|]; [rewrite (H0 eq_refl); reflexivity|]. rewrite Z.sgn_pos by lia. lia. }
    destruct B1 as [O1 E1], B2 as [O2 E2]. destruct (Hadd b1 b2 O1 O2) as [O12 V12]. clearbody b1 b2.
    destruct (ci_zero _ _ _ _ _ _ _ _ _ HC) as [O0 V0].
    rewrite glv_loop_shift. set (n1 := mpz_num_bits (Z.abs k1)). set (n2 := mpz_num_bits (Z.abs k2)). set (d := Z.of_nat n1 - Z.of_nat n2). set (k2' := Z.shiftl (Z.abs k2) d).
    assert (S1 : 0 <= k2') by (apply Z.shiftl_nonneg; lia).
    assert (Z1 : Z.abs k1 / 2 ^ Z.of_nat n1 = 0) by (apply Z.div_small; pose proof (mpz_num_bits_bound (Z.abs k1) ltac:(lia)); unfold n1; lia).
    assert (Z2 : k2' / 2 ^ Z.of_nat n1 = 0).
    { rewrite <- Z.shiftr_div_pow2 by (clear; lia).
      assert (E : Z.shiftr k2' (Z.of_nat n1) = Z.shiftr (Z.abs k2) (Z.of_nat n2)).
      { apply Z.bits_inj'. intros i Hi. rewrite !Z.shiftr_spec by exact Hi. unfold k2'. rewrite Z.shiftl_spec by (revert Hi; clear; lia). f_equal. unfold d. ring. }
      rewrite E, Z.shiftr_div_pow2 by (clear; lia). apply Z.div_small. pose proof (mpz_num_bits_bound (Z.abs k2) (Z.abs_nonneg _)). unfold n2. revert H; clear; lia. }
    assert (C0 : comb b1 b2 0 0 = zero) by (unfold comb; cbn; apply (ag_zero_l _ _ _ _ HG), (ag_zero _ _ _ _ HG)).
    destruct (glv_loop_aligned (Z.abs k1) k2' b1 b2 (add_points b1 b2) O1 O2 O12 V12 n1 true (b_zero ops)) as [Of Vf]; auto.
    - rewrite V0, Z1, Z2. symmetry. exact C0.
    - split; [exact Of|]. rewrite Vf. unfold comb. rewrite E1, E2, Ve; [|exact S1|].
      + rewrite <- (zmul_mul mem zero add opp HG) by auto. rewrite <- (zmul_add mem zero add opp HG) by auto. f_equal. lia.
      + intros ->. unfold k2'. rewrite Z.shiftl_0_l. reflexivity.
  Qed.
End GLVProof.
