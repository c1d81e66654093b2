(** The two-adic FRI commitment scheme: reductions, denominators. *)
From Coq Require Import ZArith List Bool Lia Arith Ring Field Field_theory Permutation.
From Verif Require Import Field BitsModel BitsExtra BitsProof ParallelizeModel ParallelizeSpec ParallelizeProof ParallelizeExtra SemigroupModel SemigroupSpec SemigroupProof SemigroupExtra
  PolySpec PolyProof PolyProof3 FFTModel FFTSpec FFTProof FFTProof2 FFTProof4 FFTProof5 FFTExtra DomainSpec DomainProof CosetModel CosetProof CosetProof2 BatchSpec BatchExtra FriModel FriSpec FriProof FriProof2 PcsModel.
Import ListNotations.
Open Scope nat_scope.

Lemma all_reads_map {A B} (f : A -> option B) g l : (forall x, In x l -> f x = Some (g x)) -> all_reads (map f l) = Some (map g l).
Proof.
  induction l as [|x l IH]; intros H; [reflexivity|]. cbn [map all_reads]. rewrite (H x (or_introl eq_refl)), IH; [reflexivity|]. intros y Hy. apply H. right. exact Hy.
Qed.
Lemma all_reads_Forall2 {A B} (f : A -> option B) (R : A -> B -> Prop) l : (forall x, In x l -> exists y, f x = Some y /\ R x y) -> exists ys, all_reads (map f l) = Some ys /\ Forall2 R l ys.
Proof.
  induction l as [|x l IH]; intros H; [exists []; split; [reflexivity|constructor]|]. destruct (H x (or_introl eq_refl)) as (y & E & HR).
  destruct IH as (ys & E2 & H2). { intros z Hz. apply H. right. exact Hz. } exists (y :: ys). cbn [map all_reads]. rewrite E, E2. split; [reflexivity|]. constructor; assumption.
Qed.
Lemma zip_reads_combine {A B} (a : list A) : forall b : list B, length a = length b -> zip_reads a b = Some (combine a b).
Proof.
  induction a as [|x a IH]; intros [|y b] H; cbn in H; try discriminate; [reflexivity|]. cbn [zip_reads combine]. rewrite IH by congruence. reflexivity.
Qed.
Lemma concat_opt_map {K : fld} {A} (f : A -> option (list K)) g l : (forall x, In x l -> f x = Some (g x)) -> concat_opt (map f l) = Some (concat (map g l)).
Proof.
  induction l as [|x l IH]; intros H; [reflexivity|]. cbn [map concat_opt concat]. rewrite (H x (or_introl eq_refl)), IH; [reflexivity|]. intros y Hy. apply H. right. exact Hy.
Qed.
Lemma checked_log2_32 s : s < 32 -> checked_log2 32 (Z.of_nat (2 ^ s) mod 2 ^ 32) = Some (Z.of_nat s).
Proof.
  intros Hs. assert (Hl : (0 <= Z.of_nat (2 ^ s) < 2 ^ 32)%Z). { rewrite pow2_Z. split; [apply Z.pow_nonneg; lia|apply Z.pow_lt_mono_r; lia]. }
  rewrite Z.mod_small by exact Hl. rewrite checked_log2_spec by exact Hl.
  rewrite pow2_Z. rewrite (proj2 (is_power_of_two_spec _)) by (exists (Z.of_nat s); split; [lia|reflexivity]).
  rewrite Z.log2_pow2 by lia. reflexivity.
Qed.

Lemma tab_at {B} (f : nat -> B) n i d : i < n -> nth i (map f (seq 0 n)) d = f i.
Proof. intros H. rewrite (nth_indep _ d (f 0)) by (rewrite map_length, seq_length; lia). rewrite (map_nth f (seq 0 n) 0), seq_nth by lia. reflexivity. Qed.

Section Reduce.
  Variable K : fld.
  Add Field Kpcs1 : (fld_theory K).
  Open Scope fld_scope.

  Lemma dot_powers_eval alpha row : forall pw : K, dot_powers K alpha pw row = pw * eval row alpha.
  Proof.
    induction row as [|x r IH]; intros pw; [cbn [dot_powers]; rewrite eval_nil; ring|]. cbn [dot_powers]. rewrite IH, eval_cons. ring.
  Qed.
  Lemma add_columns_eval (alpha dn : K) : forall ps ys v pw, length ys = length ps ->
    add_columns K alpha dn (v, pw) (combine ps ys) = (v + pw * (eval ps alpha - eval ys alpha) * dn, pw * alpha ^ length ps).
  Proof.
    induction ps as [|p ps IH]; intros [|y ys] v pw H; cbn in H; try discriminate.
    - cbn [combine add_columns length fpow]. rewrite !eval_nil. f_equal; ring.
    - cbn [combine add_columns fst snd]. rewrite IH by congruence. cbn [length fpow]. rewrite !eval_cons. f_equal; ring.
  Qed.
  (** The random combination of the columns is a polynomial. *)
  Lemma combination (alpha : K) n : forall cols : list (list K), Forall (fun f => (length f <= n)%nat) cols ->
    exists R, (length R <= n)%nat /\ forall x, eval R x = eval (map (fun f => eval f x) cols) alpha.
  Proof.
    induction cols as [|f cols IH]; intros HF.
    - exists []. split; [cbn; lia|]. intros x. reflexivity.
    - apply Forall_cons_iff in HF. destruct HF as [Hf HF]. destruct (IH HF) as (R & HR & E).
      exists (map (fun i => coeff f i + alpha * coeff R i) (seq 0 n)). split; [rewrite map_length, seq_length; lia|].
      intros x. cbn [map]. rewrite eval_cons, <- E. rewrite (eval_linear K f R _ 1 alpha); [ring|]. intros i. rewrite coeff_map_seq.
      destruct (Nat.ltb_spec i n); [ring|]. rewrite !coeff_over by lia. ring.
  Qed.
  Lemma quotient_poly (R : list K) z : exists Q, (length Q <= length R)%nat /\ forall x, x <> z -> (eval R x - eval R z) * finv (x - z) = eval Q x.
  Proof.
    exists (quot K R z). split; [rewrite quot_length; lia|]. intros x Hx. rewrite (quot_eval K R z x). field. intros E. apply Hx. apply fsub_eq0. exact E.
  Qed.
  Lemma scaled_poly (s : K) (c : list K) : exists c', length c' = length c /\ forall y, eval c' y = eval c (s * y).
  Proof.
    induction c as [|a c (c' & L & E)]; [exists []; split; [reflexivity|intros; rewrite !eval_nil; reflexivity]|].
    exists (a :: map (fmul s) c'). split; [cbn; rewrite map_length, L; reflexivity|]. intros y. rewrite !eval_cons, <- E.
    assert (H : eval (map (fmul s) c') y = s * eval c' y). { clear. induction c' as [|b c' IH]; cbn [map]; [rewrite !eval_nil; ring|]. rewrite !eval_cons, IH. ring. }
    rewrite H. ring.
  Qed.
End Reduce.

Section Denoms.
  Variable K : fld.
  Add Field Kpcs2 : (fld_theory K).
  Open Scope fld_scope.
  Variables (adicity : nat) (root shift : K) (threads : Z).
  Hypothesis Had : (adicity < 62)%nat.
  Hypothesis Hroot : primitive_root root (2 ^ adicity).
  Hypothesis Ht : (0 < threads < 2 ^ 62)%Z.
  Notation gen k := (generator adicity root k).
  (** Row [i] of an extension to 2^l rows belongs to this point. *)
  Definition xpt (l i : nat) : K := shift * gen l ^ brev l i.

  Lemma root_spec' l : (l <= adicity)%nat -> get_root_of_unity adicity root (2 ^ Z.of_nat l) = Some (gen l).
  Proof using Had. intros Hl. rewrite <- pow2_Z. apply root_spec; lia. Qed.

  Lemma xpt_prefix l top i : (l <= top <= adicity)%nat -> (i < 2 ^ l)%nat -> xpt top i = xpt l i.
  Proof using Type.
    clear Had Hroot Ht. intros Hl Hi. unfold xpt. f_equal. pose proof (brev_split l (top - l) 0 i Hi) as E. cbn [Nat.mul plus] in E. replace (l + (top - l))%nat with top in E by lia. rewrite E, brev_0, Nat.add_0_r.
    replace (gen l) with (gen top ^ (2 ^ (top - l))). 2:{ unfold generator. rewrite <- fpow_mul, <- Nat.pow_add_r. do 2 f_equal. lia. }
    rewrite <- fpow_mul. f_equal. apply Nat.mul_comm.
  Qed.

  (** The subgroup of the largest size, in bit-reversed order. *)
  Lemma subgroup_spec top : (0 < top <= adicity)%nat -> exists ws,
    get_bitrev_powers_writes (1 : K) fmul (fun y => y * y) (fun x => feqb x 1) threads (2 ^ top)%nat (gen top) shift = Some ws /\
    apply_writes ws (repeat (0 : K) (2 ^ top)%nat) = Some (map (xpt top) (seq 0 (2 ^ top))).
  Proof using Had Ht.
    intros Hl. destruct (bitrev_parallel_any_order K 1 fmul (fun y => y * y) (fun x => feqb x 1) top (gen top) shift threads 0
      (fld_monoid K) (fld_comm K) (fun _ => eq_refl) (fun x => feqb_eq K x 1) ltac:(lia) ltac:(lia)) as (ws & ret & E1 & E2 & E3 & E4 & E5).
    exists ws. split; [exact E1|]. rewrite (E5 ws (Permutation_refl _)). f_equal.
    apply nth_ext with (d := 0) (d' := 0); [rewrite map_length, seq_length; exact E3|]. intros i Hi. rewrite E3 in Hi.
    destruct (E4 (brev top i) (brev_lt _ _)) as (j & Ej & En). rewrite reverse_bits_len_nat in Ej by (try apply brev_lt; lia). injection Ej as <-. rewrite Nat2Z.id, brev_invol in En by exact Hi.
    rewrite (nth_error_nth _ _ _ En). rewrite (tab_at (xpt top)) by exact Hi. rewrite times_fpow. reflexivity.
  Qed.

  (** The map from points to the largest size. *)
  Fixpoint find_log (m : list (K * nat)) (z : K) : option nat := match m with [] => None | (y, l) :: r => if feqb z y then Some l else find_log r z end.
  Lemma raise_spec z l m : (exists l', find_log (raise K z l m) z = Some l' /\ (l <= l')%nat) /\
    (forall y k, find_log m y = Some k -> exists k', find_log (raise K z l m) y = Some k' /\ (k <= k')%nat) /\
    (forall top, Forall (fun e => (snd e <= top)%nat) m -> (l <= top)%nat -> Forall (fun e => (snd e <= top)%nat) (raise K z l m)).
  Proof using Type.
    clear. induction m as [|[y0 l0] m (IH1 & IH2 & IH3)]; cbn [raise find_log].
    - rewrite feqb_refl. split; [exists l; split; [reflexivity|lia]|]. split; [intros y k H; discriminate|]. intros top _ H. constructor; [exact H|constructor].
    - destruct (feqb z y0) eqn:E.
      + cbn [find_log]. rewrite E. split; [eexists; split; [reflexivity|lia]|]. split.
        * intros y k H. destruct (feqb y y0); [injection H as <-; eexists; split; [reflexivity|lia]|]. exists k. split; [exact H|lia].
        * intros top HF Hl. apply Forall_cons_iff in HF. destruct HF as [H1 H2]. constructor; [cbn in *; lia|exact H2].
      + cbn [find_log]. rewrite E. split; [exact IH1|]. split.
        * intros y k H. destruct (feqb y y0); [exists k; split; [exact H|lia]|]. apply IH2. exact H.
        * intros top HF Hl. apply Forall_cons_iff in HF. destruct HF as [H1 H2]. constructor; [exact H1|]. apply IH3; assumption.
  Qed.
  Lemma raise_all l zs : forall m,
    let m' := fold_left (fun m z => raise K z l m) zs m in
    (forall z, In z zs -> exists l', find_log m' z = Some l' /\ (l <= l')%nat) /\
    (forall y k, find_log m y = Some k -> exists k', find_log m' y = Some k' /\ (k <= k')%nat) /\
    (forall top, Forall (fun e => (snd e <= top)%nat) m -> (l <= top)%nat -> Forall (fun e => (snd e <= top)%nat) m').
  Proof using Type.
    clear. induction zs as [|z zs IH]; intros m m'; subst m'; cbn [fold_left].
    - split; [intros z []|]. split; [intros y k H; exists k; split; [exact H|lia]|]. intros top H _. exact H.
    - destruct (raise_spec z l m) as ((l1 & A1 & A2) & B & C). destruct (IH (raise K z l m)) as (I1 & I2 & I3). split; [|split].
      + intros y [<-|Hy]; [|apply I1; exact Hy]. destruct (I2 _ _ A1) as (l2 & A3 & A4). exists l2. split; [exact A3|lia].
      + intros y k H. destruct (B _ _ H) as (k1 & B1 & B2). destruct (I2 _ _ B1) as (k2 & B3 & B4). exists k2. split; [exact B3|lia].
      + intros top HF Hl. apply I3; [apply C; assumption|exact Hl].
  Qed.
  Definition sized (e : list (list K) * list K) : Prop := exists l, length (fst e) = (2 ^ l)%nat /\ (0 < l < 32)%nat /\ (l <= adicity)%nat.
  Lemma point_logs_spec mats : forall m top, Forall sized mats -> Forall (fun e => (snd e <= top)%nat) m -> (top <= adicity)%nat ->
    exists m' top', point_logs K mats m top = Some (m', top') /\ (top <= top' <= adicity)%nat /\ (mats <> [] -> 0 < top')%nat /\
      Forall (fun e => (snd e <= top')%nat) m' /\ (forall y k, find_log m y = Some k -> exists k', find_log m' y = Some k' /\ (k <= k')%nat) /\
      forall mat zs z l, In (mat, zs) mats -> In z zs -> length mat = (2 ^ l)%nat -> exists l', find_log m' z = Some l' /\ (l <= l')%nat.
  Proof using Type.
    clear Had Hroot Ht shift threads root. induction mats as [|[mat zs] mats IH]; intros m top HS HF Hto.
    - exists m, top. cbn [point_logs]. split; [reflexivity|]. split; [lia|]. split; [congruence|]. split; [exact HF|]. split; [intros y k H; exists k; split; [exact H|lia]|]. intros ? ? ? ? [].
    - apply Forall_cons_iff in HS. destruct HS as [(l & Hl & Hl32 & Hla) HS]. cbn [fst] in Hl. cbn [point_logs]. rewrite Hl, checked_log2_32 by lia. rewrite Nat2Z.id.
      destruct (raise_all l zs m) as (R1 & R2 & R3). set (m1 := fold_left (fun m z => raise K z l m) zs m) in *.
      destruct (IH m1 (Nat.max top l) HS) as (m' & top' & E & T1 & T2 & T3 & T4 & T5); [apply R3; [|lia]; eapply Forall_impl; [|exact HF]; cbv beta; intros; lia|lia|].
      exists m', top'. split; [exact E|]. split; [lia|]. split; [intros _; lia|]. split; [exact T3|]. split.
      + intros y k H. destruct (R2 _ _ H) as (k1 & B1 & B2). destruct (T4 _ _ B1) as (k2 & B3 & B4). exists k2. split; [exact B3|lia].
      + intros mat' zs' z l' [He|Hin] Hz Hl'.
        * injection He as <- <-. rewrite Hl in Hl'. apply Nat.pow_inj_r in Hl'; [|lia]. subst l'. destruct (R1 z Hz) as (k1 & B1 & B2). destruct (T4 _ _ B1) as (k2 & B3 & B4). exists k2. split; [exact B3|lia].
        * apply (T5 mat' zs'); assumption.
  Qed.

  Lemma denoms_of_spec top z l : (l <= top <= adicity)%nat ->
    denoms_of K threads (map (xpt top) (seq 0 (2 ^ top))) z l = Some (map (fun i => inv0 K (xpt l i - z)) (seq 0 (2 ^ l))).
  Proof using Had Ht.
    intros Hl. unfold denoms_of. rewrite <- pow2_Z. set (N := Z.of_nat (2 ^ l)). pose proof (pow2_small l ltac:(lia)) as Hsm.
    assert (Hb : (2 * N + threads < 2 ^ 64)%Z) by (unfold N; lia).
    destruct (container_partition threads N None ltac:(lia) ltac:(unfold N; lia) Hb) as [HT _]. set (calls := chunk_calls N _) in *.
    pose proof (tiles_bound2 adicity Had calls 0 0 N ltac:(lia) HT) as HB. rewrite Forall_forall in HB.
    assert (Hle : (2 ^ l <= 2 ^ top)%nat) by (apply Nat.pow_le_mono_r; lia).
    rewrite (concat_opt_map _ (fun c : Z * Z * Z => map (fun i => inv0 K (xpt l i - z)) (seq (Z.to_nat (snd (fst c))) (Z.to_nat (snd c))))).
    - rewrite (tiles_pointwise _ calls 0 0 N) by (auto; lia). rewrite Z.sub_0_r. unfold N. rewrite Nat2Z.id. reflexivity.
    - intros [[i s] n] Hc. specialize (HB _ Hc). cbn [fst snd] in *. destruct HB as (B1 & B2 & B3). unfold denom_chunk.
      rewrite (all_reads_map _ (xpt l)).
      + rewrite map_map, batch_inv_spec, map_map. reflexivity.
      + intros j Hj. apply in_seq in Hj. assert (Hjl : (j < 2 ^ l)%nat) by (unfold N in B3; lia). rewrite (nth_error_nth' _ 0) by (rewrite map_length, seq_length; lia). f_equal.
        rewrite (tab_at (xpt top)) by lia. apply xpt_prefix; lia.
  Qed.

  Lemma find_denoms_all subgroup m D z l : all_reads (map (fun e : K * nat => match denoms_of K threads subgroup (fst e) (snd e) with Some l => Some (fst e, l) | None => None end) m) = Some D ->
    find_log m z = Some l -> exists y, feqb z y = true /\ Some (find_denoms K D z) = denoms_of K threads subgroup y l.
  Proof using Type.
    clear. revert D. induction m as [|[y l0] m IH]; intros D E F; [discriminate|]. cbn [map all_reads fst snd] in E.
    destruct (denoms_of K threads subgroup y l0) as [ds|] eqn:Ed; [|discriminate]. destruct (all_reads _) as [D'|] eqn:ED; [|discriminate]. injection E as <-.
    cbn [find_log find_denoms] in *. destruct (feqb z y) eqn:Ey; [|apply IH; auto]. injection F as <-. exists y. split; [exact Ey|]. symmetry. exact Ed.
  Qed.

  Lemma inverse_denominators_spec mats : mats <> [] -> Forall sized mats -> exists D, inverse_denominators K adicity root shift threads mats = Some D /\
    forall mat zs z l, In (mat, zs) mats -> In z zs -> length mat = (2 ^ l)%nat ->
      (2 ^ l <= length (find_denoms K D z))%nat /\ forall i, (i < 2 ^ l)%nat -> nth i (find_denoms K D z) 0 = inv0 K (xpt l i - z).
  Proof using Had Hroot Ht.
    intros Hne HS. destruct (point_logs_spec mats [] 0%nat HS (Forall_nil _) ltac:(lia)) as (m & top & E & T1 & T2 & T3 & _ & T5). specialize (T2 Hne).
    unfold inverse_denominators. rewrite E. rewrite root_spec' by lia. destruct (subgroup_spec top ltac:(lia)) as (ws & -> & ->).
    destruct (all_reads_Forall2 (fun e : K * nat => match denoms_of K threads (map (xpt top) (seq 0 (2 ^ top))) (fst e) (snd e) with Some l => Some (fst e, l) | None => None end) (fun _ _ => True) m) as (D & ED & _).
    { intros [y l] Hy. rewrite Forall_forall in T3. specialize (T3 _ Hy). cbn [fst snd] in *. rewrite denoms_of_spec by lia. eexists. split; [reflexivity|exact I]. }
    exists D. split; [exact ED|]. intros mat zs z l Hin Hz Hl. destruct (T5 mat zs z l Hin Hz Hl) as (l' & Fl & Hll).
    destruct (find_denoms_all _ _ _ _ _ ED Fl) as (y & Ey & Ed). apply feqb_eq in Ey. subst y.
    assert (Hl't : (l' <= top)%nat). { clear - T3 Fl. induction m as [|[y k] m IH]; [discriminate|]. apply Forall_cons_iff in T3. destruct T3 as [H1 H2]. cbn [find_log] in Fl. destruct (feqb z y); [injection Fl as <-; exact H1|auto]. }
    rewrite denoms_of_spec in Ed by lia. injection Ed as ->. rewrite map_length, seq_length. assert (Hp : (2 ^ l <= 2 ^ l')%nat) by (apply Nat.pow_le_mono_r; lia). split; [exact Hp|].
    intros i Hi. rewrite (tab_at (fun i => inv0 K (xpt l' i - z))) by lia. rewrite (xpt_prefix l l') by lia. reflexivity.
  Qed.
End Denoms.
