(** Soundness of sumcheck, by counting challenges. *)
From Coq Require Import ZArith Lia List Bool Arith Ring Field Field_theory ZifyBool ZifyNat.
From Verif Require Import Field BigIntModel ParallelizeModel ParallelizeProof SemigroupModel PolySpec PolyModel PolyProof PolyProof3 PolyProof4 KzgProof KzgProof2 FFTProof2
  SumcheckModel SumcheckSpec SumcheckProof SumcheckProof2 SumcheckProof3 SumcheckProof4 SumcheckProof5.
Import ListNotations.
Open Scope fld_scope.

Section Game.
  Context {K : fld}.
  (** The verifier's rounds against a prover that answers the challenges it has seen with [strategy]. *)
  Fixpoint play (v : verifier K) (strategy : list K -> list K) (seen rs : list K) : option (verifier K) :=
    match rs with
    | [] => Some v
    | r :: rs => match verifier_round v r (strategy seen) with None => None | Some v => play v strategy (seen ++ [r]) rs end
    end.
  (** Whether the verifier of a sum over [n] variables with messages of [d] + 1 values accepts, and the subclaim holds for [F]. *)
  Definition accepts (big : K -> Z) (threads : Z) (n d : nat) (sum : K) (strategy : list K -> list K) (F : list K -> K) (rs : list K) : bool :=
    match play (new_verifier d n) strategy [] rs with
    | None => false
    | Some v => match check_subclaim big threads v sum with Some (_, Some (point, e)) => feqb (F point) e | _ => false end
    end.
End Game.

Section Count.
  Variable K : fld.
  Add Field Ks8 : (fld_theory K).
  Variables (big : K -> Z) (threads : Z).
  Hypothesis Ht : (0 < threads < 128)%Z.

  Lemma tuples_length (S : list K) n : length (tuples S n) = Nat.pow (length S) n.
  Proof.
    induction n as [|n IH]; cbn [tuples]; [reflexivity|]. rewrite Nat.pow_succ_r', <- IH. generalize (tuples S n) as T. clear IH. intros T.
    induction S as [|r S IHS]; cbn [flat_map length]; [reflexivity|]. rewrite app_length, map_length, IHS. lia.
  Qed.
  Lemma tuples_elem (S : list K) : forall n rs, In rs (tuples S n) -> length rs = n.
  Proof.
    induction n as [|n IH]; cbn [tuples]; intros rs H.
    - destruct H as [<-|[]]. reflexivity.
    - apply in_flat_map in H. destruct H as (r & _ & H). apply in_map_iff in H. destruct H as (t & <- & H). cbn [length]. rewrite (IH t H). reflexivity.
  Qed.
  Lemma count_bound (P : list K -> bool) (T : list (list K)) (bad : K -> bool) (B : nat) : forall S, (forall r, In r S -> bad r = false -> (length (filter (fun t => P (r :: t)) T) <= B)%nat) ->
    (length (filter P (flat_map (fun r => map (cons r) T) S)) <= length (filter bad S) * length T + length S * B)%nat.
  Proof.
    assert (FM : forall r, length (filter P (map (cons r) T)) = length (filter (fun t => P (r :: t)) T)).
    { intros r. clear. induction T as [|t T IH]; cbn [map filter]; [reflexivity|]. destruct (P (r :: t)); cbn [length]; rewrite IH; reflexivity. }
    assert (FL : forall (Q : list K -> bool), (length (filter Q T) <= length T)%nat). { intros Q. clear. induction T as [|t T IH]; cbn [filter length]; [lia|]. destruct (Q t); cbn [length]; lia. }
    induction S as [|r S IH]; intros H; cbn [flat_map length filter]; [lia|]. rewrite filter_app, app_length, FM.
    assert (IHS := IH ltac:(intros; apply H; [right|]; assumption)). destruct (bad r) eqn:E; cbn [length].
    - specialize (FL (fun t => P (r :: t))). lia.
    - specialize (H r ltac:(left; reflexivity) E). lia.
  Qed.
  Lemma few_roots (f g : K -> K) d (S : list K) : isp K (d + 1) f -> isp K (d + 1) g -> NoDup S -> (exists c, f c <> g c) -> (length (filter (fun r => feqb (f r) (g r)) S) <= d)%nat.
  Proof.
    intros Hf Hg HN (c & Hc). destruct (Nat.le_gt_cases (length (filter (fun r => feqb (f r) (g r)) S)) d) as [L|L]; [exact L|]. exfalso. apply Hc. apply (proj1 (fsub_eq0 K _ _)).
    apply (isp_vanish K (d + 1) (fun z => f z - g z) (filter (fun r => feqb (f r) (g r)) S)).
    - apply isp_sub; assumption.
    - apply NoDup_filter. exact HN.
    - lia.
    - intros z Hz. apply filter_In in Hz. destruct Hz as [_ Hz]. apply feqb_eq in Hz. rewrite Hz. ring.
  Qed.

  Definition passes (F : list K -> K) (v : verifier K) (seen : list K) (strategy : list K -> list K) (c : K) (rs : list K) : bool :=
    match check_rounds big threads v (length seen) (messages strategy seen rs) c with Some (Some e) => feqb (F (seen ++ rs)) e | _ => false end.
  Lemma check_count F n d (S : list K) strategy : low_degree K F n d -> NoDup S -> stands_for big (d + 1) -> (2 * Z.of_nat (d + 1) + threads < 2 ^ 64)%Z ->
    forall m seen c (V : list K -> verifier K), (forall rs, v_max (V rs) = d /\ v_random (V rs) = seen ++ rs) -> (length seen + m)%nat = n -> c <> cube_sum m (fun y => F (seen ++ y)) ->
    (length (filter (fun rs => passes F (V rs) seen strategy c rs) (tuples S m)) <= m * d * Nat.pow (length S) (m - 1))%nat.
  Proof.
    intros HF HN Hbig Hb. induction m as [|m IH]; intros seen c V HV Hn Hc.
    - cbn [tuples filter]. replace (passes F (V []) seen strategy c []) with false; [cbn; lia|]. symmetry. unfold passes. cbn [messages check_rounds]. apply feqb_neq. intros E. apply Hc.
      rewrite <- E. unfold cube_sum. cbn. ring.
    - cbn [tuples]. set (msg := strategy seen).
      assert (ZERO : forall Q : K * list K -> bool, (forall r t, passes F (V (r :: t)) seen strategy c (r :: t) = false) ->
        (length (filter (fun rs => passes F (V rs) seen strategy c rs) (flat_map (fun r => map (cons r) (tuples S m)) S)) <= Datatypes.S m * d * Nat.pow (length S) (Datatypes.S m - 1))%nat).
      { intros _ Z. pose proof (count_bound (fun rs => passes F (V rs) seen strategy c rs) (tuples S m) (fun _ => false) 0 S) as CB.
        replace (filter (fun _ : K => false) S) with (@nil K) in CB by (clear; induction S; [reflexivity|assumption]). cbn [length] in CB.
        etransitivity; [apply CB|lia]. intros r Hr _. replace (filter _ (tuples S m)) with (@nil (list K)); [cbn; lia|]. clear -Z. generalize (tuples S m). induction l as [|t l IHl]; [reflexivity|].
        cbn [filter]. rewrite Z. exact IHl. }
      specialize (ZERO (fun _ => false)).
      destruct (Nat.eqb_spec (length msg) (d + 1)) as [LM|LM].
      2:{ apply ZERO. intros r t. unfold passes. cbn [messages check_rounds]. destruct (HV (r :: t)) as [-> _]. fold msg. replace (Nat.eqb (length msg) (d + 1)) with false by lia. reflexivity. }
      destruct (nth_error msg 0) as [p0|] eqn:E0.
      2:{ apply nth_error_None in E0. lia. }
      destruct (nth_error msg 1) as [p1|] eqn:E1.
      2:{ apply ZERO. intros r t. unfold passes. cbn [messages check_rounds]. destruct (HV (r :: t)) as [-> _]. fold msg. rewrite LM, Nat.eqb_refl, E0, E1. reflexivity. }
      destruct (feqb (p0 + p1) c) eqn:ES.
      2:{ apply ZERO. intros r t. unfold passes. cbn [messages check_rounds]. destruct (HV (r :: t)) as [-> _]. fold msg. rewrite LM, Nat.eqb_refl, E0, E1, ES. reflexivity. }
      apply feqb_eq in ES.
      assert (Hd : (1 < d + 1)%nat). { rewrite <- LM. apply nth_error_Some. rewrite E1. discriminate. }
      destruct (interpolate_exists K big msg ltac:(rewrite LM; exact Hbig) ltac:(lia)) as (f & If & Vf).
      rewrite LM in If, Vf. set (g := fun x => cube_sum m (fun y => F (seen ++ x :: y))).
      assert (Ig : isp K (d + 1) g). { apply (partial_isp K F n); [exact HF|lia]. }
      assert (NE : exists x, f x <> g x).
      { destruct (f_dec K (f 0) (g 0)) as [A|A]; [|exists 0; exact A]. destruct (f_dec K (f 1) (g 1)) as [B|B]; [|exists 1; exact B]. exfalso. apply Hc. rewrite <- ES, cube_split.
        pose proof (Vf 0%nat ltac:(lia)) as V0. pose proof (Vf 1%nat Hd) as V1. replace (fnat 0 : K) with (0 : K) in V0 by reflexivity. replace (fnat 1 : K) with (1 : K) in V1 by (cbn; ring).
        apply (nth_error_nth _ _ 0) in E0, E1. rewrite E0 in V0. rewrite E1 in V1. rewrite <- V0, <- V1, A, B. reflexivity. }
      pose proof (few_roots f g d S If Ig HN NE) as FR.
      pose proof (count_bound (fun rs => passes F (V rs) seen strategy c rs) (tuples S m) (fun r => feqb (f r) (g r)) (m * d * Nat.pow (length S) (m - 1)) S) as CB.
      rewrite tuples_length in CB. replace (Datatypes.S m - 1)%nat with m by lia. etransitivity; [apply CB|].
      + intros r Hr Hbad. apply feqb_neq in Hbad.
        assert (STEP : forall t, passes F (V (r :: t)) seen strategy c (r :: t) = passes F (V (r :: t)) (seen ++ [r]) strategy (f r) t).
        { intros t. unfold passes. cbn [messages check_rounds]. destruct (HV (r :: t)) as [-> ->]. fold msg. rewrite LM, Nat.eqb_refl, E0, E1. rewrite (proj2 (feqb_eq K _ _) ES).
          rewrite nth_error_app2, Nat.sub_diag by lia. cbn [nth_error].
          rewrite (interpolate_ok K big threads msg r Ht ltac:(rewrite LM; exact Hb) ltac:(rewrite LM; exact Hbig) f); [|lia|rewrite LM; exact If|rewrite LM; exact Vf].
          rewrite app_length, Nat.add_1_r, <- app_assoc. reflexivity. }
        rewrite (filter_ext _ _ STEP). apply (IH (seen ++ [r]) (f r) (fun t => V (r :: t))).
        * intros t. rewrite <- app_assoc. apply (HV (r :: t)).
        * rewrite app_length. cbn [length]. lia.
        * intros E. apply Hbad. rewrite E. unfold g, cube_sum. apply fsum_map_ext. intros b _. rewrite <- app_assoc. reflexivity.
      + assert (A1 : (length (filter (fun r => feqb (f r) (g r)) S) * Nat.pow (length S) m <= d * Nat.pow (length S) m)%nat) by (apply Nat.mul_le_mono_r; exact FR).
        assert (A2 : (length S * (m * d * Nat.pow (length S) (m - 1)) <= m * d * Nat.pow (length S) m)%nat).
        { destruct m as [|k]; [lia|]. replace (Datatypes.S k - 1)%nat with k by lia. rewrite Nat.pow_succ_r'. generalize (Nat.pow (length S) k). intros z. lia. }
        replace (Datatypes.S m * d * Nat.pow (length S) m)%nat with (d * Nat.pow (length S) m + m * d * Nat.pow (length S) m)%nat by lia. lia.
  Qed.

  Lemma play_ok (strategy : list K -> list K) : forall rs (v : verifier K) seen, (length (v_received v) + length rs <= v_vars v)%nat ->
    play v strategy seen rs = Some (mk_verifier (v_vars v) (v_max v) (v_random v ++ rs) (v_received v ++ messages strategy seen rs)).
  Proof.
    induction rs as [|r rs IH]; intros v seen H; cbn [play messages].
    - rewrite !app_nil_r. destruct v; reflexivity.
    - cbn [length] in H. rewrite (verifier_round_ok K big) by lia. rewrite IH; cbn [v_vars v_max v_random v_received].
      + rewrite <- !app_assoc. reflexivity.
      + rewrite app_length. cbn [length]. lia.
  Qed.
  Lemma messages_length strategy : forall rs seen, length (messages (K := K) strategy seen rs) = length rs.
  Proof. induction rs as [|r rs IH]; intros seen; cbn [messages length]; [reflexivity|]. rewrite IH. reflexivity. Qed.
  Lemma sound F n d (S : list K) strategy sum : low_degree K F n d -> NoDup S -> stands_for big (d + 1) -> (2 * Z.of_nat (d + 1) + threads < 2 ^ 64)%Z -> sum <> cube_sum n F ->
    (length (filter (accepts big threads n d sum strategy F) (tuples S n)) <= n * d * Nat.pow (length S) (n - 1))%nat.
  Proof.
    intros HF HN Hbig Hb Hs.
    pose proof (check_count F n d S strategy HF HN Hbig Hb n [] sum (fun rs => mk_verifier n d rs (messages strategy [] rs)) ltac:(intros; split; reflexivity) eq_refl) as CC.
    etransitivity; [|apply CC; exact Hs]. apply Nat.eq_le_incl. f_equal. apply filter_ext_in. intros rs Hin. apply tuples_elem in Hin.
    unfold accepts. rewrite play_ok by (cbn [new_verifier v_vars v_received length]; lia). unfold check_subclaim, passes. cbn [new_verifier v_vars v_max v_random v_received app length].
    rewrite messages_length, Hin, Nat.eqb_refl. destruct (check_rounds _ _ _ _ _ _) as [[e|]|]; reflexivity.
  Qed.
End Count.
