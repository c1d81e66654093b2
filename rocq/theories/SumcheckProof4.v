(** Proofs about InterpolateUniPoly. *)
From Coq Require Import ZArith Lia List Bool Arith Ring Field Field_theory ZifyBool ZifyNat.
From Verif Require Import Field BigIntModel ParallelizeModel SemigroupModel SemigroupProof PolySpec PolyModel PolyProof PolyProof3 PolyProof4 KzgProof KzgProof2
  SumcheckModel SumcheckSpec SumcheckProof SumcheckProof2.
Import ListNotations.
Open Scope fld_scope.

Section Interp.
  Variable K : fld.
  Add Field Ks4 : (fld_theory K).
  Variable big : K -> Z.
  Notation chk i := (fnat i : K).

  Lemma fnat_S i : (fnat (S i) : K) = fnat i + 1. Proof. cbn [fnat]. change (fadd 1 (fnat i)) with (1 + fnat i : K). ring. Qed.
  Lemma fnat_plus i j : (fnat (i + j) : K) = fnat i + fnat j.
  Proof. induction i as [|i IH]; [cbn; ring|]. cbn [Nat.add]. rewrite !fnat_S, IH. ring. Qed.

  (** One chunk, and all of them. *)
  Definition dfac (i : nat) : K := if Nat.ltb 1 i then fnat i else 1.
  Lemma chunk_closed (x : K) : forall m i P D E, interpolate_chunk x (fnat i) i m (P, D, E) =
    (P * fprod (map (fun j => x - fnat j) (seq i m)), D * fprod (map dfac (seq i m)), E ++ map (fun j => x - fnat j) (seq i m)).
  Proof.
    induction m as [|m IH]; intros i P D E; cbn [interpolate_chunk seq map fprod].
    - rewrite app_nil_r. f_equal. f_equal; ring.
    - rewrite <- fnat_S, IH, <- app_assoc. cbn [app]. f_equal. f_equal; [ring|]. unfold dfac at 2. destruct (Nat.ltb 1 i); ring.
  Qed.
  Lemma chunks_merge (x : K) : forall cs P D E,
    fold_left (fun a r => let '(p, d, e) := a in let '(p', d', e') := r in (p * p', d * d', e ++ e'))
      (map (fun c : nat * nat => interpolate_chunk x (fnat (fst c)) (fst c) (snd c) (1, 1, [])) cs) (P, D, E) =
    let L := concat (map (fun c => seq (fst c) (snd c)) cs) in
    (P * fprod (map (fun j => x - fnat j) L), D * fprod (map dfac L), E ++ map (fun j => x - fnat j) L).
  Proof.
    induction cs as [|c cs IH]; intros P D E; cbn [map fold_left concat].
    - cbv zeta. cbn [map fprod]. rewrite app_nil_r. f_equal. f_equal; ring.
    - rewrite chunk_closed. cbn [app]. rewrite IH. cbv zeta. rewrite !map_app, !fprod_app, app_assoc. f_equal. f_equal; ring.
  Qed.
  (** The two loops from the last entry to the first. *)
  Lemma rev_seq_S m : rev (seq 0 (S m)) = m :: rev (seq 0 m). Proof. rewrite seq_S, rev_app_distr. reflexivity. Qed.
  Lemma scale_closed (e : nat -> K) : forall m D o acc, scale_denoms D (fnat o) (map e (rev (seq 0 m))) acc =
    map (fun i => e i * (D * fprod (map (fun j => - fnat j) (seq o (m - 1 - i))))) (seq 0 m) ++ acc.
  Proof.
    induction m as [|m IH]; intros D o acc; [reflexivity|]. rewrite rev_seq_S. cbn [map scale_denoms]. rewrite <- fnat_S, IH.
    rewrite seq_S, map_app, <- app_assoc. cbn [map app]. f_equal.
    - apply map_ext_in. intros i Hi. apply in_seq in Hi. replace (S m - 1 - i)%nat with (S (m - 1 - i)) by lia. cbn [seq map fprod]. ring.
    - f_equal. rewrite Nat.add_0_l. replace (S m - 1 - m)%nat with 0%nat by lia. cbn [seq map fprod]. ring.
  Qed.
  Lemma sum_closed (product : K) (p e : nat -> K) : forall m dd res, sum_up product dd (fnat (m - 1)) (map (fun i => (p i, e i)) (rev (seq 0 m))) res =
    res + fsum (map (fun i => p i * product * (dd * fprod (map (fun j => chk j) (seq (S i) (m - 1 - i)))) * e i) (seq 0 m)).
  Proof.
    induction m as [|m IH]; intros dd res; [cbn; ring|]. rewrite rev_seq_S. cbn [map sum_up]. replace (S m - 1)%nat with m by lia.
    rewrite (seq_S m 0), map_app, fsum_app. rewrite Nat.add_0_l. cbn [map fsum]. rewrite Nat.sub_diag. cbn [seq map fprod].
    destruct m as [|m]; [cbn; ring|]. replace (fnat (S m) - 1) with (chk (S m - 1)) by (replace (S m - 1)%nat with m by lia; rewrite fnat_S; ring).
    rewrite IH. rewrite (fsum_map_ext K (fun i => p i * product * (dd * chk (S m) * fprod (map (fun j => chk j) (seq (S i) (S m - 1 - i)))) * e i)
      (fun i => p i * product * (dd * fprod (map (fun j => chk j) (seq (S i) (S m - i)))) * e i)); [ring|].
    intros i Hi. apply in_seq in Hi. replace (S m - i)%nat with (S (S m - 1 - i)) by lia. rewrite seq_S, map_app, fprod_app. cbn [map fprod].
    replace (S i + (S m - 1 - i))%nat with (S m) by lia. ring.
  Qed.
  (** The products of differences. *)
  Lemma prod_below (i : nat) : fprod (map (fun j => chk i - fnat j) (seq 0 i)) = fprod (map (fun j => chk j) (seq 1 i)).
  Proof.
    assert (G : forall m k, fprod (map (fun j => chk (k + m) - fnat j) (seq k m)) = fprod (map (fun j => chk j) (seq 1 m))).
    { induction m as [|m IH]; intros k; [reflexivity|]. rewrite (seq_S m 1), map_app, fprod_app. cbn [seq map fprod].
      replace (k + S m)%nat with (S k + m)%nat by lia. rewrite IH. replace (S k + m)%nat with (k + (1 + m))%nat by lia. rewrite fnat_plus. ring. }
    specialize (G i 0%nat). rewrite Nat.add_0_l in G. exact G.
  Qed.
  Lemma prod_above (i m : nat) : fprod (map (fun j => chk i - fnat j) (seq (S i) m)) = fprod (map (fun j => - chk j) (seq 1 m)).
  Proof.
    assert (G : forall m k, fprod (map (fun j => chk i - fnat j) (seq (i + k) m)) = fprod (map (fun j => - chk j) (seq k m))).
    { clear m. induction m as [|m IH]; intros k; [reflexivity|]. cbn [seq map fprod]. rewrite <- Nat.add_succ_r, IH, fnat_plus. ring. }
    rewrite <- G. rewrite Nat.add_1_r. reflexivity.
  Qed.
  Lemma dfac_seq n : (0 < n)%nat -> fprod (map dfac (seq 0 n)) = fprod (map (fun j => chk j) (seq 1 (n - 1))).
  Proof.
    destruct n as [|n]; [lia|]. intros _. replace (S n - 1)%nat with n by lia. cbn [seq map fprod]. unfold dfac at 1. cbn [Nat.ltb Nat.leb].
    replace (fprod (map dfac (seq 1 n))) with (fprod (map (fun j => chk j) (seq 1 n))); [ring|]. f_equal. apply map_ext_in. intros j Hj. apply in_seq in Hj.
    unfold dfac. destruct (Nat.ltb_spec 1 j); [reflexivity|]. replace j with 1%nat by lia. cbn. ring.
  Qed.
  Definition others (n i : nat) : list nat := seq 0 i ++ seq (S i) (n - 1 - i).
  Lemma seq_split n i : (i < n)%nat -> seq 0 n = seq 0 i ++ i :: seq (S i) (n - 1 - i).
  Proof. intros H. replace n with (i + S (n - 1 - i))%nat at 1 by lia. rewrite seq_app. reflexivity. Qed.
  Lemma denominators n i : (i < n)%nat -> fprod (map dfac (seq 0 n)) * fprod (map (fun j => - chk j) (seq 1 (n - 1 - i))) =
    fprod (map (fun j => chk j) (seq (S i) (n - 1 - i))) * fprod (map (fun j => chk i - fnat j) (others n i)).
  Proof.
    intros H. rewrite dfac_seq by lia. unfold others. rewrite map_app, fprod_app, prod_below, prod_above.
    replace (n - 1)%nat with (i + (n - 1 - i))%nat at 1 by lia. rewrite seq_app, map_app, fprod_app. cbn [Nat.add]. ring.
  Qed.
  Lemma prod_others n i (f : nat -> K) : (i < n)%nat -> fprod (map f (seq 0 n)) = f i * fprod (map f (others n i)).
  Proof. intros H. rewrite (seq_split n i H). unfold others. rewrite !map_app, !fprod_app. cbn [map fprod]. ring. Qed.

  Lemma combine_indexed (g : nat -> K) (l : list K) : combine l (map g (seq 0 (length l))) = map (fun i => (nth i l 0, g i)) (seq 0 (length l)).
  Proof.
    assert (G : forall (l : list K) s, combine l (map g (seq s (length l))) = map (fun i => (nth (i - s) l 0, g i)) (seq s (length l))).
    { clear l. induction l as [|a l IH]; intros s; [reflexivity|]. cbn [length seq map combine]. rewrite Nat.sub_diag. cbn [nth]. f_equal. rewrite IH. apply map_ext_in. intros i Hi. apply in_seq in Hi.
      replace (i - s)%nat with (S (i - S s)) by lia. reflexivity. }
    rewrite G. apply map_ext. intros i. rewrite Nat.sub_0_r. reflexivity.
  Qed.

  Section Value.
    Variables (threads : Z) (poly : list K) (x : K).
    Let n := length poly.
    Hypotheses (Ht : (0 < threads < 128)%Z) (Hb : (2 * Z.of_nat n + threads < 2 ^ 64)%Z) (Hbig : stands_for big n).
    Lemma distinct i j : (i < n)%nat -> (j < n)%nat -> chk i = fnat j -> i = j.
    Proof. intros Hi Hj E. destruct Hbig as [_ B]. pose proof (B i Hi). pose proof (B j Hj). rewrite E in H. lia. Qed.
    Lemma others_neq i : (i < n)%nat -> fprod (map (fun j => chk i - fnat j) (others n i)) <> 0.
    Proof.
      intros Hi. apply fprod_neq0. intros y Hy. apply in_map_iff in Hy. destruct Hy as (j & <- & Hj). intros E. apply (proj1 (fsub_eq0 K _ _)) in E.
      unfold others in Hj. apply in_app_iff in Hj. assert (j < n /\ j <> i)%nat as [J1 J2] by (destruct Hj as [Hj|Hj]; apply in_seq in Hj; lia).
      apply J2. symmetry. apply distinct; assumption.
    Qed.
    Definition lag (z : K) : K := fsum (map (fun i => nth i poly 0 * finv (fprod (map (fun j => chk i - fnat j) (others n i))) * fprod (map (fun j => z - fnat j) (others n i))) (seq 0 n)).
    Lemma interpolate_lag : (0 < n)%nat -> (Z.of_nat n <= big x)%Z -> interpolate_uni_poly big threads poly x = Some (lag x).
    Proof.
      intros Hn Hx. unfold interpolate_uni_poly. fold n. replace (Nat.eqb n 0) with false by lia. replace (big x <? Z.of_nat n)%Z with false by lia.
      destruct (size_chunks_ok threads (16 * threads) n ltac:(lia) Hn Hb) as [Ne CC]. destruct (size_chunks threads (16 * threads) n) as [|c cs]; [congruence|].
      cbn [map]. rewrite chunk_closed. cbn [app]. rewrite chunks_merge. cbv zeta. cbn [map concat] in CC.
      rewrite <- !map_app. rewrite CC.
      rewrite <- map_rev.
      assert (Xi : forall i, (i < n)%nat -> x - fnat i <> 0). { intros i Hi E. apply (proj1 (fsub_eq0 K _ _)) in E. destruct Hbig as [_ B]. specialize (B i Hi). rewrite <- E in B. lia. }
      set (product := 1 * fprod (map (fun j => x - chk j) (seq (fst c) (snd c))) * fprod (map (fun j => x - chk j) (concat (map (fun c => seq (fst c) (snd c)) cs)))).
      set (D := 1 * fprod (map dfac (seq (fst c) (snd c))) * fprod (map dfac (concat (map (fun c => seq (fst c) (snd c)) cs)))).
      assert (EP : product = fprod (map (fun j => x - chk j) (seq 0 n))). { unfold product. rewrite <- CC, map_app, fprod_app. ring. }
      assert (ED : D = fprod (map dfac (seq 0 n))). { unfold D. rewrite <- CC, map_app, fprod_app. ring. }
      clearbody product D. subst product D.
      pose proof (scale_closed (fun i => x - fnat i) n (fprod (map dfac (seq 0 n))) 1 []) as SC. rewrite app_nil_r in SC.
      replace (fnat 1 : K) with (1 : K) in SC by (cbn; ring). rewrite SC. clear SC.
      set (evs := map _ (seq 0 n)).
      rewrite (batch_inverse_spec K 1 threads true evs evs Ht); [|unfold evs; rewrite map_length, seq_length; exact Hb|reflexivity|reflexivity].
      f_equal. unfold evs. rewrite map_map. clear evs.
      assert (EC : combine poly (map (fun i => inv_of K 1 ((x - chk i) * (fprod (map dfac (seq 0 n)) * fprod (map (fun j => - chk j) (seq 1 (n - 1 - i)))))) (seq 0 n)) =
        map (fun i => (nth i poly 0, inv_of K 1 ((x - chk i) * (fprod (map dfac (seq 0 n)) * fprod (map (fun j => - chk j) (seq 1 (n - 1 - i))))))) (seq 0 n)).
      { apply (combine_indexed (fun i => inv_of K 1 ((x - chk i) * (fprod (map dfac (seq 0 n)) * fprod (map (fun j => - chk j) (seq 1 (n - 1 - i))))))). }
      rewrite EC. clear EC. rewrite <- map_rev. rewrite sum_closed. unfold lag.
      match goal with |- 0 + ?u = _ => transitivity u; [ring|] end. apply fsum_map_ext. intros i Hi. apply in_seq in Hi.
      pose proof (denominators n i ltac:(lia)) as DN. pose proof (others_neq i ltac:(lia)) as ON. specialize (Xi i ltac:(lia)).
      rewrite (prod_others n i (fun j => x - chk j)) by lia.
      rewrite DN. set (O := fprod (map (fun j => chk i - fnat j) (others n i))) in *. set (X := fprod (map (fun j => x - chk j) (others n i))).
      set (W := fprod (map (fun j => chk j) (seq (S i) (n - 1 - i)))) in *.
      assert (WN : W <> 0). { unfold W. apply fprod_neq0. intros y Hy. apply in_map_iff in Hy. destruct Hy as (j & <- & Hj). apply in_seq in Hj. intros E.
        assert (j = 0)%nat; [|lia]. apply distinct; [lia|lia|]. exact E. }
      unfold inv_of. replace (feqb _ 0) with false.
      - field. auto.
      - symmetry. apply feqb_neq. apply fmul_neq0; [exact Xi|]. apply fmul_neq0; assumption.
    Qed.
    Lemma lag_isp : (0 < n)%nat -> isp K n lag.
    Proof.
      intros Hn. unfold lag. assert (G : forall L, (forall i, In i L -> (i < n)%nat) ->
        isp K n (fun z => fsum (map (fun i => nth i poly 0 * finv (fprod (map (fun j => chk i - fnat j) (others n i))) * fprod (map (fun j => z - fnat j) (others n i))) L))).
      { induction L as [|i L IH]; intros HL; cbn [map fsum]; [apply isp_zero|]. apply (isp_add K n); [|apply IH; intros; apply HL; right; assumption].
        pose proof (isp_roots K 1 (fun _ => nth i poly 0 * finv (fprod (map (fun j => chk i - fnat j) (others n i)))) (map (fun j => chk j) (others n i)) (isp_const K _)) as I.
        specialize (HL i ltac:(left; reflexivity)). rewrite map_length in I. assert (OL : length (others n i) = (n - 1)%nat) by (unfold others; rewrite app_length, !seq_length; lia). rewrite OL in I. replace (1 + (n - 1))%nat with n in I by lia.
        apply (isp_ext K n _ _ I). intros z. rewrite map_map. reflexivity. }
      apply G. intros i Hi. apply in_seq in Hi. lia.
    Qed.
    Lemma lag_at k : (k < n)%nat -> lag (fnat k) = nth k poly 0.
    Proof.
      intros Hk. unfold lag. rewrite (seq_split n k Hk), map_app, fsum_app. cbn [map fsum].
      assert (Z : forall i, In i (seq 0 n) -> i <> k -> nth i poly 0 * finv (fprod (map (fun j => chk i - fnat j) (others n i))) * fprod (map (fun j => chk k - fnat j) (others n i)) = 0).
      { intros i Hi Ne. apply in_seq in Hi. assert (Hin : In k (others n i)). { unfold others. apply in_app_iff. destruct (Nat.lt_ge_cases k i); [left|right]; apply in_seq; lia. }
        replace (fprod (map (fun j => chk k - fnat j) (others n i))) with (0 : K); [ring|]. symmetry. apply in_split in Hin. destruct Hin as (l1 & l2 & ->).
        rewrite map_app, fprod_app. cbn [map fprod]. ring. }
      rewrite !fsum_map_zero.
      - pose proof (others_neq k Hk) as ON. field. exact ON.
      - intros i Hi. apply in_seq in Hi. apply Z; [apply in_seq|]; lia.
      - intros i Hi. apply in_seq in Hi. apply Z; [apply in_seq|]; lia.
    Qed.
    Lemma points_distinct : NoDup (map (fun j => chk j) (seq 0 n)).
    Proof.
      assert (G : forall m s, (s + m <= n)%nat -> NoDup (map (fun j => chk j) (seq s m))).
      { induction m as [|m IH]; intros s Hs; cbn [seq map]; constructor; [|apply IH; lia]. intros Hin. apply in_map_iff in Hin. destruct Hin as (j & E & Hj). apply in_seq in Hj.
        assert (j = s); [apply distinct; [lia|lia|exact E]|lia]. }
      apply G. lia.
    Qed.
    (** The value of the polynomial through (0, poly[0]), (1, poly[1]), ... *)
    Lemma interpolate_ok f : (0 < n)%nat -> isp K n f -> (forall i, (i < n)%nat -> f (fnat i) = nth i poly 0) -> interpolate_uni_poly big threads poly x = Some (f x).
    Proof.
      intros Hn Hf Hv. destruct (Z.ltb_spec (big x) (Z.of_nat n)) as [L|L].
      - unfold interpolate_uni_poly. fold n. replace (Nat.eqb n 0) with false by lia. replace (big x <? Z.of_nat n)%Z with true by lia.
        destruct Hbig as [B _]. destruct (B x) as [B0 B1]. rewrite (nth_error_nth' poly 0) by (fold n; lia). f_equal. rewrite <- Hv by lia. rewrite B1. reflexivity.
      - rewrite interpolate_lag by assumption. f_equal. apply (proj1 (fsub_eq0 K _ _)).
        apply (isp_vanish K n (fun z => lag z - f z) (map (fun j => chk j) (seq 0 n))).
        + apply isp_sub; [apply lag_isp; exact Hn|exact Hf].
        + apply points_distinct.
        + rewrite map_length, seq_length. lia.
        + intros z Hz. apply in_map_iff in Hz. destruct Hz as (k & <- & Hk). apply in_seq in Hk. rewrite lag_at, Hv by lia. ring.
    Qed.
    Lemma interpolate_exists : (0 < n)%nat -> exists f, isp K n f /\ (forall i, (i < n)%nat -> f (fnat i) = nth i poly 0).
    Proof. intros Hn. exists lag. split; [apply lag_isp; exact Hn|]. intros i Hi. apply lag_at. exact Hi. Qed.
  End Value.
End Interp.
