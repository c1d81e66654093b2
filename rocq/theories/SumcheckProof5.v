(** Proofs about the sumcheck prover: its messages, and completeness. *)
From Coq Require Import ZArith Lia List Bool Arith Ring Field Field_theory ZifyBool ZifyNat.
From Verif Require Import Field BigIntModel ParallelizeModel ParallelizeProof SemigroupModel PolySpec PolyModel PolyProof PolyProof3 PolyProof4 KzgProof KzgProof2 FFTProof2
  SumcheckModel SumcheckSpec SumcheckProof SumcheckProof2 SumcheckProof3 SumcheckProof4.
Import ListNotations.
Open Scope fld_scope.

Section Vec.
  Variable K : fld.
  Add Field Ks5 : (fld_theory K).
  Notation vec f d := (map f (seq 0 (d + 1))).

  Lemma zip_seq (f g : nat -> K) l : zip_with fadd (map f l) (map g l) = map (fun j => f j + g j) l.
  Proof. unfold zip_with. induction l as [|a l IH]; cbn [map combine]; [reflexivity|]. rewrite IH. reflexivity. Qed.
  Lemma repeat_map {A} (c : K) : forall (l : list A), repeat c (length l) = map (fun _ => c) l.
  Proof. induction l as [|a l IH]; cbn; [reflexivity|]. rewrite IH. reflexivity. Qed.
  Lemma repeat_vec (c : K) d : repeat c (d + 1) = vec (fun _ => c) d.
  Proof. rewrite <- repeat_map, seq_length. reflexivity. Qed.
  Lemma scale_vec (f : nat -> K) (s st : K) : forall m a, scale_products (s + fnat a * st) st (map f (seq a m)) = map (fun j => f j * (s + fnat j * st)) (seq a m).
  Proof.
    induction m as [|m IH]; intros a; cbn [seq map scale_products]; [reflexivity|]. f_equal.
    replace (s + fnat a * st + st) with (s + fnat (S a) * st) by (rewrite fnat_S; ring). apply IH.
  Qed.
  Lemma ofold_zip {A} (h : A -> option (list K)) (g : A -> nat -> K) d : forall l f, (forall a, In a l -> h a = Some (vec (g a) d)) ->
    ofold (fun ret a => option_map (zip_with fadd ret) (h a)) l (vec f d) = Some (vec (fun j => f j + fsum (map (fun a => g a j) l)) d).
  Proof.
    induction l as [|a l IH]; intros f H; cbn [ofold].
    - f_equal. apply map_ext. intros j. cbn [map fsum]. ring.
    - rewrite (H a) by (left; reflexivity). cbn [option_map]. rewrite zip_seq. rewrite IH by (intros; apply H; right; assumption). f_equal. apply map_ext. intros j. cbn [map fsum]. ring.
  Qed.
  Lemma fold_zip {A} (g : A -> nat -> K) d : forall l f, fold_left (zip_with fadd) (map (fun a => vec (g a) d) l) (vec f d) = vec (fun j => f j + fsum (map (fun a => g a j) l)) d.
  Proof.
    induction l as [|a l IH]; intros f; cbn [map fold_left].
    - apply map_ext. intros j. cbn [map fsum]. ring.
    - rewrite zip_seq, IH. apply map_ext. intros j. cbn [map fsum]. ring.
  Qed.
End Vec.

Section Prover.
  Variable K : fld.
  Add Field Ks6 : (fld_theory K).
  Variables (threads : Z) (md : nat).
  Hypothesis Ht : (0 < threads < 128)%Z.
  Notation vec f d := (map f (seq 0 (d + 1))).

  (** What the terms of a prover with these tables compute. *)
  Definition tab_eval (terms : list (term K)) (tabs : list (list K)) (x : list K) : K :=
    fsum (map (fun t => t_coeff t * fprod (map (fun i => mlx (nth i tabs []) x) (t_indexes t))) terms).
  Definition in_range (terms : list (term K)) (tabs : list (list K)) : Prop := Forall (fun t => Forall (fun i => (i < length tabs)%nat) (t_indexes t)) terms.

  Lemma mle_at_nth (l : list K) i : mle_at l i = nth i l 0.
  Proof. unfold mle_at. destruct (nth_error l i) eqn:E; [symmetry; apply nth_error_nth; exact E|]. apply nth_error_None in E. rewrite nth_overflow by exact E. reflexivity. Qed.
  Lemma mlx_edge m (l : list K) (c : K) b : (b < Nat.pow 2 m)%nat -> mlx l (c :: corner m b) = nth (2 * b) l 0 + c * (nth (2 * b + 1) l 0 - nth (2 * b) l 0).
  Proof. intros H. rewrite mlx_cons, corner_length, mlx_corner by exact H. apply fixed_nth. exact H. Qed.
  Lemma term_vec m (tabs : list (list K)) b d (t : term K) : (b < Nat.pow 2 m)%nat -> Forall (fun i => (i < length tabs)%nat) (t_indexes t) ->
    term_per_variable tabs b (repeat (t_coeff t) (d + 1)) t = Some (vec (fun j => t_coeff t * fprod (map (fun i => mlx (nth i tabs []) (fnat j :: corner m b)) (t_indexes t))) d).
  Proof.
    intros Hb. unfold term_per_variable. rewrite repeat_vec.
    assert (G : forall ix f, Forall (fun i => (i < length tabs)%nat) ix -> ofold (fun products index => match nth_error tabs index with None => None
        | Some table => let start := mle_at table (2 * b) in Some (scale_products start (mle_at table (2 * b + 1) - start) products) end) ix (vec f d) =
      Some (vec (fun j => f j * fprod (map (fun i => mlx (nth i tabs []) (fnat j :: corner m b)) ix)) d)).
    { induction ix as [|i ix IH]; intros f H; cbn [ofold].
      - f_equal. apply map_ext. intros j. cbn [map fprod]. ring.
      - inversion H as [|? ? H1 H2]; subst. rewrite (nth_error_nth' tabs [] H1). cbv zeta. rewrite !mle_at_nth.
        set (s := nth (2 * b) (nth i tabs []) 0). set (e := nth (2 * b + 1) (nth i tabs []) 0).
        pose proof (scale_vec K f s (e - s) (d + 1) 0) as SV. replace (s + fnat 0 * (e - s)) with s in SV by (cbn; ring). rewrite SV. rewrite IH by exact H2.
        f_equal. apply map_ext. intros j. cbn [map fprod]. rewrite mlx_edge by exact Hb. fold s e. ring. }
    intros H. rewrite G by exact H. reflexivity.
  Qed.
  (** One message. *)
  Definition message (F : list K -> K) (m d : nat) : list K := vec (fun j => cube_sum m (fun y => F (fnat j :: y))) d.
  Lemma round_ok s m : p_vars s = (p_round s + S m)%nat -> in_range (p_terms s) (p_tables s) -> (p_max s <= md)%nat -> (2 * Z.of_nat (Nat.pow 2 m) + threads < 2 ^ 64)%Z ->
    prover_round threads md s = Some (mk_prover (S (p_round s)) (p_vars s) (p_max s) (p_terms s) (p_tables s), message (tab_eval (p_terms s) (p_tables s)) m (p_max s)).
  Proof.
    intros Hv Hr Hm Hb. unfold prover_round. replace (Nat.leb (S (p_round s)) (p_vars s)) with true by lia. cbn [p_round p_vars p_terms p_max p_tables].
    replace (p_vars s - S (p_round s))%nat with m by lia. pose proof (Nat.pow_nonzero 2 m ltac:(lia)) as P.
    destruct (size_chunks_ok threads (16 * threads) (Nat.pow 2 m) ltac:(lia) ltac:(lia) Hb) as [Ne CC].
    set (g := fun b j => fsum (map (fun t => t_coeff t * fprod (map (fun i => mlx (nth i (p_tables s) []) (fnat j :: corner m b)) (t_indexes t))) (p_terms s))).
    rewrite (all_some_ext _ (fun c => vec (fun j => fsum (map (fun b => g b j) (seq (fst c) (snd c)))) (p_max s))).
    - destruct (size_chunks threads (16 * threads) (Nat.pow 2 m)) as [|c cs]; [congruence|]. cbn [map].
      rewrite (fold_zip K (fun c j => fsum (map (fun b => g b j) (seq (fst c) (snd c))))). cbv zeta. rewrite map_length, seq_length.
      replace (Nat.leb (p_max s + 1 - 1) md) with true by lia. do 2 f_equal. unfold message, cube_sum. apply map_ext. intros j. cbn [map concat] in CC.
      rewrite <- CC, map_app, fsum_app. f_equal.
      rewrite concat_map, <- fsum_concat, !map_map. reflexivity.
    - intros c Hc. unfold round_chunk. cbn [p_max p_tables p_terms]. rewrite repeat_vec.
      assert (G : forall L f, (forall b, In b L -> (b < Nat.pow 2 m)%nat) -> ofold (fun ret i => ofold (fun ret t => option_map (zip_with fadd ret)
          (term_per_variable (p_tables s) i (repeat (t_coeff t) (p_max s + 1)) t)) (p_terms s) ret) L (vec f (p_max s)) =
        Some (vec (fun j => f j + fsum (map (fun b => g b j) L)) (p_max s))).
      { induction L as [|b L IH]; intros f HL; cbn [ofold].
        - f_equal. apply map_ext. intros j. cbn [map fsum]. ring.
        - rewrite (ofold_zip K _ (fun t j => t_coeff t * fprod (map (fun i => mlx (nth i (p_tables s) []) (fnat j :: corner m b)) (t_indexes t)))).
          + rewrite IH by (intros; apply HL; right; assumption). f_equal. apply map_ext. intros j. cbn [map fsum]. unfold g at 2. ring.
          + intros t Hin. apply term_vec; [apply HL; left; reflexivity|]. unfold in_range in Hr. rewrite Forall_forall in Hr. apply Hr, Hin. }
      rewrite G.
      + f_equal. apply map_ext. intros j. ring.
      + intros b Hbb. assert (In b (seq 0 (Nat.pow 2 m))). { rewrite <- CC. apply in_concat. exists (seq (fst c) (snd c)). split; [|exact Hbb]. apply in_map_iff. exists c. split; [reflexivity|exact Hc]. }
        apply in_seq in H. lia.
  Qed.
  (** Fixing the challenge. *)
  Lemma tab_eval_fixed terms tabs (r : K) m x : in_range terms tabs -> length x = m -> tab_eval terms (map (fun l => fixed K l r (Nat.pow 2 m)) tabs) x = tab_eval terms tabs (r :: x).
  Proof.
    intros Hr Hx. unfold tab_eval. apply fsum_map_ext. intros t Hin. unfold in_range in Hr. rewrite Forall_forall in Hr. specialize (Hr t Hin). rewrite Forall_forall in Hr. do 2 f_equal.
    apply map_ext_in. intros i Hi. specialize (Hr i Hi). rewrite mlx_cons, Hx.
    set (h := fun l => fixed K l r (Nat.pow 2 m)). rewrite (nth_indep _ [] (h [])) by (rewrite map_length; exact Hr). rewrite map_nth. reflexivity.
  Qed.
  Lemma next_ok s m (r : K) : (0 < p_round s)%nat -> p_vars s = (p_round s + S m)%nat -> (p_vars s < 64)%nat -> in_range (p_terms s) (p_tables s) ->
    Forall (fun l => length l = Nat.pow 2 (S (S m))) (p_tables s) -> (p_max s <= md)%nat -> (2 * Z.of_nat (Nat.pow 2 m) + threads < 2 ^ 64)%Z ->
    exists tabs, prover_next threads md s r = Some (mk_prover (S (p_round s)) (p_vars s) (p_max s) (p_terms s) tabs, message (fun y => tab_eval (p_terms s) (p_tables s) (r :: y)) m (p_max s)) /\
      in_range (p_terms s) tabs /\ Forall (fun l => length l = Nat.pow 2 (S m)) tabs /\ (forall y, length y = S m -> tab_eval (p_terms s) tabs y = tab_eval (p_terms s) (p_tables s) (r :: y)).
  Proof.
    intros H0 Hv H64 Hr Hl Hm Hb. unfold prover_next. replace (Nat.ltb 0 (p_round s)) with true by lia.
    rewrite (all_some_ext _ (fun l => fixed K l r (Nat.pow 2 (S m)))).
    2:{ intros l Hin. rewrite Forall_forall in Hl. apply run_fix_one; [lia|]. apply Hl, Hin. }
    set (tabs := map (fun l => fixed K l r (Nat.pow 2 (S m))) (p_tables s)).
    assert (R : in_range (p_terms s) tabs). { unfold in_range, tabs. rewrite map_length. exact Hr. }
    assert (V : forall y, length y = S m -> tab_eval (p_terms s) tabs y = tab_eval (p_terms s) (p_tables s) (r :: y)). { intros y Hy. apply tab_eval_fixed; assumption. }
    exists tabs. rewrite (round_ok _ m); cbn [p_round p_vars p_terms p_max p_tables]; try assumption. split.
    - do 2 f_equal. unfold message, cube_sum. apply map_ext. intros j. apply fsum_map_ext. intros b _. apply V. cbn [length]. rewrite corner_length. reflexivity.
    - split; [exact R|]. split; [|exact V]. unfold tabs. apply Forall_forall. intros l Hin. apply in_map_iff in Hin. destruct Hin as (l0 & <- & _). apply fixed_length.
  Qed.
End Prover.

Section Protocol.
  Variable K : fld.
  Add Field Ks7 : (fld_theory K).
  Variables (big : K -> Z) (threads : Z).
  Hypothesis Ht : (0 < threads < 128)%Z.

  (** The messages of the honest prover for the function [F] of [n] variables. *)
  Definition honest (F : list K -> K) (n d : nat) (seen : list K) : list K := message K (fun y => F (seen ++ y)) (n - 1 - length seen) d.
  Lemma honest_ext F G n d seen : (forall x, length x = n -> F x = G x) -> (length seen < n)%nat -> honest F n d seen = honest G n d seen.
  Proof.
    intros H Hs. unfold honest, message, cube_sum. apply map_ext. intros j. apply fsum_map_ext. intros b _. apply H. rewrite app_length. cbn [length]. rewrite corner_length. lia.
  Qed.
  Lemma cube_split n (F : list K -> K) : cube_sum (S n) F = cube_sum n (fun y => F (0 :: y)) + cube_sum n (fun y => F (1 :: y)).
  Proof.
    unfold cube_sum. rewrite Nat.pow_succ_r', fsum_even_odd. f_equal; apply fsum_map_ext; intros b _; rewrite corner_S.
    - rewrite Nat.testbit_even_0, Nat.div2_double. reflexivity.
    - rewrite Nat.testbit_odd_0. replace (2 * b + 1)%nat with (S (2 * b)) by lia. rewrite Nat.div2_succ_double. reflexivity.
  Qed.
  (** A function that is a polynomial of degree at most [d] in each variable. *)
  Definition low_degree (F : list K -> K) (n d : nat) : Prop := forall x y, (length x + S (length y))%nat = n -> isp K (d + 1) (fun c => F (x ++ c :: y)).
  Lemma isp_sum {A} n (h : A -> K -> K) : forall l, (forall a, In a l -> isp K n (h a)) -> isp K n (fun x => fsum (map (fun a => h a x) l)).
  Proof.
    induction l as [|a l IH]; intros H; cbn [map fsum]; [apply isp_zero|]. apply (isp_add K n (h a) (fun x => fsum (map (fun a => h a x) l))); [apply H; left; reflexivity|].
    apply IH. intros; apply H; right; assumption.
  Qed.
  Lemma partial_isp F n d seen m : low_degree F n d -> (length seen + S m)%nat = n -> isp K (d + 1) (fun c => cube_sum m (fun y => F (seen ++ c :: y))).
  Proof. intros H Hn. unfold cube_sum. apply (isp_sum (d + 1) (fun b c => F (seen ++ c :: corner m b))). intros b _. apply H. rewrite corner_length. exact Hn. Qed.
  Lemma isp_affine n f (a b : K) : isp K n f -> isp K (S n) (fun x => (a + b * x) * f x).
  Proof.
    intros H. apply (isp_ext K (S n) (fun x => a * f x + b * ((x - 0) * f x))).
    - apply isp_add; apply isp_scale; [apply (isp_weaken K n); [exact H|lia]|apply isp_shift; exact H].
    - intros x. ring.
  Qed.
  Lemma combination_low heap ts n : low_degree (combination (K := K) heap ts) n (max_factors ts).
  Proof.
    intros x y _. unfold combination. apply (isp_sum _ (fun t c => fst t * fprod (map (fun p => mlx (heap p) (x ++ c :: y)) (snd t)))). intros t Hin. apply filter_In in Hin. destruct Hin as [Hin _].
    apply isp_scale. assert (HL : (length (snd t) <= max_factors ts)%nat).
    { unfold max_factors. clear -Hin. induction ts as [|s ts IH]; [contradiction|]. cbn [map fold_right]. destruct Hin as [->|Hin]; [lia|]. specialize (IH Hin). lia. }
    assert (G : forall ps, isp K (length ps + 1) (fun c => fprod (map (fun p => mlx (heap p) (x ++ c :: y)) ps))).
    { induction ps as [|p ps IH]; cbn [map fprod length].
      - apply isp_const.
      - apply (isp_ext K (S (length ps + 1)) (fun c => (mlx (heap p) (x ++ 0 :: y) + (mlx (heap p) (x ++ 1 :: y) - mlx (heap p) (x ++ 0 :: y)) * c) * fprod (map (fun p => mlx (heap p) (x ++ c :: y)) ps))).
        + apply isp_affine. exact IH.
        + intros c. f_equal. pose proof (mlx_affine K x (heap p) 0 1 c y) as MA. replace (0 + c * (1 - 0)) with c in MA by ring. rewrite MA. ring. }
    apply (isp_weaken K (length (snd t) + 1)); [apply G|lia].
  Qed.

  (** The verifier's loop on honest messages. *)
  Lemma nth_vec (f : nat -> K) d i : (i < d + 1)%nat -> nth i (map f (seq 0 (d + 1))) 0 = f i.
  Proof. intros H. rewrite (nth_indep _ 0 (f 0%nat)) by (rewrite map_length, seq_length; exact H). rewrite map_nth, seq_nth by exact H. reflexivity. Qed.
  Lemma check_honest F n d : (0 < d)%nat -> low_degree F n d -> stands_for big (d + 1) -> (2 * Z.of_nat (d + 1) + threads < 2 ^ 64)%Z ->
    forall rs seen v, v_max v = d -> v_random v = seen ++ rs -> (length seen + length rs)%nat = n ->
    check_rounds big threads v (length seen) (messages (honest F n d) seen rs) (cube_sum (length rs) (fun y => F (seen ++ y))) = Some (Some (F (seen ++ rs))).
  Proof.
    intros Hd HF Hbig Hb. induction rs as [|r rs IH]; intros seen v Hm Hv Hn; cbn [messages check_rounds].
    - do 2 f_equal. unfold cube_sum. cbn. ring.
    - set (msg := honest F n d seen). assert (LM : length msg = (d + 1)%nat). { unfold msg, honest, message. rewrite map_length, seq_length. reflexivity. }
      rewrite LM, Hm, Nat.eqb_refl. set (m := length rs). cbn [length] in Hn. fold m in Hn.
      set (f := fun c => cube_sum m (fun y => F (seen ++ c :: y))).
      assert (NM : forall i, (i < d + 1)%nat -> nth i msg 0 = f (fnat i)). { intros i Hi. unfold msg, honest, message. rewrite nth_vec by exact Hi. unfold f. replace (n - 1 - length seen)%nat with m by lia. reflexivity. }
      rewrite (nth_error_nth' msg 0) by lia. rewrite (nth_error_nth' msg 0) by lia. rewrite !NM by lia.
      assert (S1 : feqb (f (fnat 0) + f (fnat 1)) (cube_sum (length (r :: rs)) (fun y => F (seen ++ y))) = true).
      { apply feqb_eq. cbn [length]. rewrite cube_split. unfold f. replace (fnat 0 : K) with (0 : K) by reflexivity. replace (fnat 1 : K) with (1 : K) by (cbn; ring). reflexivity. }
      rewrite S1, Hv. rewrite nth_error_app2, Nat.sub_diag by lia. cbn [nth_error].
      rewrite (interpolate_ok K big threads msg r Ht) with (f := f).
      + replace (f r) with (cube_sum m (fun y => F ((seen ++ [r]) ++ y))).
        * replace (S (length seen)) with (length (seen ++ [r])) by (rewrite app_length; cbn [length]; lia).
          unfold m. rewrite (IH (seen ++ [r]) v); [rewrite <- app_assoc; reflexivity|exact Hm|rewrite <- app_assoc; exact Hv|rewrite app_length; cbn [length]; lia].
        * unfold f, cube_sum. apply fsum_map_ext. intros b _. rewrite <- app_assoc. reflexivity.
      + rewrite LM. exact Hb.
      + rewrite LM. exact Hbig.
      + lia.
      + rewrite LM. apply (partial_isp F n); [exact HF|lia].
      + rewrite LM. intros i Hi. symmetry. apply NM. exact Hi.
  Qed.

  (** The rounds. *)
  Lemma verifier_round_ok v (r : K) msg : (length (v_received v) < v_vars v)%nat -> verifier_round v r msg = Some (mk_verifier (v_vars v) (v_max v) (v_random v ++ [r]) (v_received v ++ [msg])).
  Proof. intros H. unfold verifier_round. replace (Nat.ltb _ _) with true by lia. reflexivity. Qed.
  Lemma run_rounds_ok md F n d : forall rs p v last seen, (n < 64)%nat -> (d <= md)%nat -> (2 * Z.of_nat (Nat.pow 2 n) + threads < 2 ^ 64)%Z ->
    p_vars p = n -> p_max p = d -> p_round p = length (seen ++ [last]) -> (length (seen ++ [last]) + length rs)%nat = n -> in_range K (p_terms p) (p_tables p) ->
    Forall (fun l => length l = Nat.pow 2 (S (length rs))) (p_tables p) -> (forall y, length y = S (length rs) -> tab_eval K (p_terms p) (p_tables p) y = F (seen ++ y)) ->
    v_vars v = n -> (length (v_received v) + length rs)%nat = n ->
    run_rounds threads md p v last rs = Some (mk_verifier n (v_max v) (v_random v ++ rs) (v_received v ++ messages (honest F n d) (seen ++ [last]) rs)).
  Proof.
    induction rs as [|r rs IH]; intros p v last seen H64 Hdm Hb Hv Hmx Hro Hn Hr Hl HV Vv Vl; cbn [run_rounds messages].
    - rewrite !app_nil_r. destruct v; cbn in *. subst. reflexivity.
    - cbn [length] in *. rewrite app_length in Hro, Hn. cbn [length] in Hro, Hn.
      assert (Hb' : (2 * Z.of_nat (Nat.pow 2 (length rs)) + threads < 2 ^ 64)%Z).
      { assert (Nat.pow 2 (length rs) <= Nat.pow 2 n)%nat by (apply Nat.pow_le_mono_r; lia). lia. }
      destruct (next_ok K threads md Ht p (length rs) last) as (tabs & EN & R' & L' & V'); try assumption; try lia.
      rewrite EN, verifier_round_ok by lia. rewrite (IH _ _ r (seen ++ [last])); cbn [p_vars p_max p_round p_terms p_tables v_vars v_max v_random v_received]; try assumption; try lia.
      + rewrite <- !app_assoc. cbn [app]. do 4 f_equal. unfold honest, message, cube_sum. rewrite Hmx.
        replace (n - 1 - length (seen ++ [last]))%nat with (length rs) by (rewrite app_length; cbn [length]; lia). apply map_ext. intros j. apply fsum_map_ext. intros b _.
        rewrite HV by (cbn [length]; rewrite corner_length; lia). rewrite <- app_assoc. reflexivity.
      + rewrite !app_length. cbn [length]. lia.
      + rewrite !app_length. cbn [length]. lia.
      + intros y Hy. rewrite V' by exact Hy. rewrite HV by (cbn [length]; lia). rewrite <- app_assoc. reflexivity.
      + rewrite app_length. cbn [length]. lia.
  Qed.

  Variable heap : nat -> list K.
  Lemma in_range_flat n lc ts : stands K heap n lc ts -> in_range K (lc_terms lc) (map heap (lc_flat lc)).
  Proof.
    intros (_ & _ & T & _). unfold in_range. rewrite map_length. induction T as [|t s tl sl [_ R] T IH]; constructor; [|exact IH].
    clear -R. induction R as [|i p ix ps H R IH]; constructor; [|exact IH]. apply nth_error_Some. unfold resolves in H. congruence.
  Qed.
  Lemma tab_eval_flat n lc ts x : stands K heap n lc ts -> tab_eval K (lc_terms lc) (map heap (lc_flat lc)) x = combination heap ts x.
  Proof.
    intros (_ & _ & T & _). unfold tab_eval, combination. apply (Forall2_fsum K (term_is K (lc_flat lc))); [exact T|]. intros t s [Hc R] _. rewrite Hc. do 2 f_equal.
    clear -R. induction R as [|i p ix ps H R IH]; cbn [map]; [reflexivity|]. rewrite IH. do 2 f_equal. unfold resolves in H. apply nth_error_nth. rewrite nth_error_map, H. reflexivity.
  Qed.
  Lemma protocol_complete md mmd n ts lc rs : (n < 62)%nat -> length rs = n -> (0 < n <= mmd)%nat -> (0 < max_factors ts <= md)%nat -> Forall (fun t => Forall (good K heap n) (snd t)) ts ->
    stands K heap n lc ts -> stands_for big (max_factors ts + 1) -> (2 * Z.of_nat (max_factors ts + 1) + threads < 2 ^ 64)%Z -> (2 * Z.of_nat (length ts) + threads < 2 ^ 64)%Z ->
    run_protocol big heap threads md mmd lc rs = Some true.
  Proof.
    intros H64 Hrs Hn Hd HG S Hbig Hbm Hbt. set (d := max_factors ts) in *.
    assert (Hb : (2 * Z.of_nat (Nat.pow 2 n) + threads < 2 ^ 64)%Z).
    { rewrite Nat2Z.inj_pow. change (Z.of_nat 2) with 2%Z. assert (2 ^ Z.of_nat n <= 2 ^ 61)%Z by (apply Z.pow_le_mono_r; lia). change (2 ^ 61)%Z with 2305843009213693952%Z in *. change (2 ^ 64)%Z with 18446744073709551616%Z. lia. }
    pose proof S as (SV & SM & _ & _ & _ & SG). destruct rs as [|r rs]; [cbn in Hrs; lia|]. cbn [length] in Hrs. unfold run_protocol, new_prover, pk_build. cbn [pk_vars pk_max pk_terms pk_flat].
    rewrite SV. replace (Nat.eqb n 0) with false by lia.
    assert (Hb' : (2 * Z.of_nat (Nat.pow 2 (length rs)) + threads < 2 ^ 64)%Z).
    { assert (Nat.pow 2 (length rs) <= Nat.pow 2 n)%nat by (apply Nat.pow_le_mono_r; lia). lia. }
    rewrite (round_ok K threads md Ht _ (length rs)); cbn [p_round p_vars p_terms p_max p_tables]; [|lia|apply (in_range_flat n lc ts S)|rewrite SM; lia|exact Hb'].
    rewrite verifier_round_ok by (cbn; lia). cbn [new_verifier v_vars v_max v_random v_received app].
    rewrite (run_rounds_ok md (combination heap ts) n d rs _ _ r []); cbn [p_vars p_max p_round p_terms p_tables v_vars v_max v_random v_received app length];
      [|lia|lia|exact Hb|reflexivity|exact SM|reflexivity|lia|apply (in_range_flat n lc ts S)| |intros y _; apply (tab_eval_flat n); exact S|exact (eq_refl n)|lia].
    - rewrite (lc_combine_ok K heap n ltac:(lia) threads lc ts) by (try assumption; lia). unfold check_subclaim. cbn [v_received v_vars length].
      assert (LM : forall strat rs seen, length (messages (K := K) strat seen rs) = length rs). { intros st. induction rs0; intros; cbn [messages length]; [reflexivity|]. rewrite IHrs0. reflexivity. }
      rewrite LM, Hrs, Nat.eqb_refl.
      replace (message K (tab_eval K (lc_terms lc) (map heap (lc_flat lc))) (length rs) (lc_max lc) :: messages (honest (combination heap ts) n d) [r] rs)
        with (messages (honest (combination heap ts) n d) [] (r :: rs)).
      2:{ cbn [messages app]. f_equal. unfold honest, message, cube_sum. rewrite SM. fold d. replace (n - 1 - @length K [])%nat with (length rs) by (cbn [length]; lia).
          apply map_ext. intros j. apply fsum_map_ext. intros b _. symmetry. apply (tab_eval_flat n). exact S. }
      pose proof (check_honest (combination heap ts) n d ltac:(lia) (combination_low heap ts n) Hbig Hbm (r :: rs) []
        (mk_verifier n (lc_max lc) (r :: rs) (messages (honest (combination heap ts) n d) [] (r :: rs))) SM eq_refl Hrs) as CH.
      cbn [app length] in CH. rewrite Hrs in CH. change (fun y : list K => combination heap ts y) with (combination heap ts) in CH. rewrite CH. cbn [v_random].
      rewrite (lc_evaluate_ok K heap n ltac:(lia) threads mmd lc ts (r :: rs)); try assumption; try lia.
      + cbn [option_map]. rewrite feqb_refl. reflexivity.
      + apply Forall_forall. intros t Hin. assert (length (snd t) <= d)%nat; [|lia]. unfold d, max_factors. clear -Hin.
        induction ts as [|s ts IH]; [contradiction|]. cbn [map fold_right]. destruct Hin as [->|Hin]; [lia|]. specialize (IH Hin). lia.
    - rewrite Hrs. apply Forall_forall. intros l Hin. apply in_map_iff in Hin. destruct Hin as (p & <- & Hp). rewrite Forall_forall in SG. apply (SG p Hp).
  Qed.
End Protocol.
