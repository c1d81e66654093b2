(** Proofs about the fraction representation. *)
From Coq Require Import ZArith List Bool Lia Ring Field.
From Coq Require Import ZifyBool ZifyNat.
From Verif Require Import ParallelizeModel ParallelizeSpec ParallelizeProof ParallelizeExtra.
From Verif Require Import SemigroupModel SemigroupProof RationalModel Field.
Import ListNotations.
Open Scope fld_scope.

Section RationalProof.
  Variable K : fld.
  Add Field Kf : (fld_theory K).
  Implicit Types x y : rational K.
  Let value (x : rational K) : K := num x / den x.
  Let ok (x : rational K) : Prop := den x <> 0.

  Lemma rf_ring_ops x y : ok x -> ok y ->
    (ok (rf_add K x y) /\ value (rf_add K x y) = value x + value y) /\
    (ok (rf_sub K x y) /\ value (rf_sub K x y) = value x - value y) /\
    (ok (rf_mul K x y) /\ value (rf_mul K x y) = value x * value y) /\
    (ok (rf_neg K x) /\ value (rf_neg K x) = - value x) /\
    (ok (rf_double K x) /\ value (rf_double K x) = value x + value x) /\
    (ok (rf_square K x) /\ value (rf_square K x) = value x * value x).
  Proof.
    unfold ok, value. intros Hx Hy. cbn. repeat split; try (field; auto); auto using fmul_neq0.
  Qed.
  Lemma rf_in_place_eq x y (alias : bool) : (alias = true -> y = x) ->
    rf_add_in_place K alias x y = rf_add K x y /\
    rf_sub_in_place K alias x y = rf_sub K x y /\
    rf_mul_in_place K alias x y = rf_mul K x y.
  Proof. intros H. destruct alias; [rewrite (H eq_refl)|]; repeat split. Qed.

  Lemma value_zero x : ok x -> (value x = 0 <-> num x = 0).
  Proof.
    unfold ok, value. intros Hx. split; intros H.
    - transitivity (num x / den x * den x); [field; auto|rewrite H; ring].
    - rewrite H. field. auto.
  Qed.
  Lemma rf_zero x : ok x -> (rf_is_zero K x = true <-> value x = 0).
  Proof. intros Hx. unfold rf_is_zero. rewrite feqb_eq, value_zero by auto. tauto. Qed.
  Lemma rf_eq x y : ok x -> ok y -> (rf_eqb K x y = true <-> value x = value y).
  Proof.
    unfold ok, value, rf_eqb. intros Hx Hy. rewrite feqb_eq. split; intros H.
    - transitivity (num x * den y / (den x * den y)); [field; auto|]. rewrite H. field. auto.
    - transitivity (num x / den x * (den x * den y)); [field; auto|]. rewrite H. field. auto.
  Qed.
  Lemma value_is x c : ok x -> (value x = c <-> num x = c * den x).
  Proof.
    unfold ok, value. intros Hx. split; intros H; [rewrite <- H|rewrite H]; field; auto.
  Qed.
  Lemma rf_one_iff x : ok x -> (rf_is_one K x = true <-> (value x = 1 \/ num x = 1)).
  Proof.
    intros Hx. unfold rf_is_one. rewrite orb_true_iff, !feqb_eq, value_is by auto.
    replace (1 * den x) with (den x) by ring. tauto.
  Qed.
  Lemma rf_minus_one_iff x : ok x -> (rf_is_minus_one K x = true <-> (value x = - (1) \/ num x = - (1))).
  Proof.
    intros Hx. unfold rf_is_minus_one. rewrite orb_true_iff, !feqb_eq, value_is by auto.
    assert (E : num x + den x = 0 <-> num x = - (1) * den x).
    { split; intros H; [transitivity (num x + den x - den x); [ring|rewrite H; ring]|rewrite H; ring]. }
    tauto.
  Qed.
  Lemma rf_inverse_spec x : ok x ->
    match rf_inverse K x with
    | None => value x = 0
    | Some i => value x <> 0 /\ ok i /\ value x * value i = 1
    end.
  Proof.
    intros Hx. unfold rf_inverse. destruct (rf_is_zero K x) eqn:E.
    - apply rf_zero in E; auto.
    - assert (value x <> 0) by (intros H; apply rf_zero in H; auto; congruence).
      assert (Hn : num x <> 0) by (rewrite <- value_zero; auto).
      split; [auto|]. unfold ok, value in *. cbn. split; [auto|]. field. auto.
  Qed.
  Lemma rf_div_spec x y : ok x -> ok y ->
    match rf_div K x y with
    | None => value y = 0
    | Some q => value y <> 0 /\ ok q /\ value q = value x / value y
    end.
  Proof.
    intros Hx Hy. unfold rf_div. pose proof (rf_inverse_spec y Hy) as H.
    destruct (rf_inverse K y) as [i|]; [|exact H]. destruct H as (H1 & H2 & H3).
    split; [auto|]. destruct (rf_ring_ops x i Hx H2) as (_ & _ & (H4 & H5) & _). split; [auto|].
    rewrite H5. assert (Ei : value i = finv (value y)) by (apply finv_unique; exact H3). rewrite Ei. field. auto.
  Qed.
  Lemma rf_evaluate_spec x : rf_evaluate K x = if feqb (den x) 0 then None else Some (value x).
  Proof. reflexivity. Qed.

  Definition eval0 x : K := if feqb (den x) 0 then 0 else value x.

  Lemma rf_batch_spec threads l results coeff : (0 < threads)%Z ->
    (2 * Z.of_nat (length l) + threads < 2 ^ 64)%Z -> length l = length results ->
    rf_batch_evaluate K threads l results coeff = Some (map eval0 l).
  Proof.
    intros Ht Hb HL. unfold rf_batch_evaluate. replace (Nat.eqb _ _) with true by lia. cbn [negb].
    rewrite <- HL. destruct (container_partition threads (Z.of_nat (length l)) None Ht ltac:(lia) Hb) as [HT _].
    set (calls := chunk_calls _ _) in *. clearbody calls.
    destruct (pieces_concat calls 0 0 l [] HT eq_refl) as [HC _]. cbn [app] in HC.
    transitivity (Some (map eval0 (concat (map (piece l) calls)))); [|rewrite HC; reflexivity].
    rewrite concat_map, map_map. clear HC HT.
    induction calls as [|[[i s] n] cs IH]; [reflexivity|]. cbn [map all_chunks concat].
    assert (E : rf_chunk K l (i, s, n) = Some (map eval0 (piece l (i, s, n)))).
    { unfold rf_chunk. change (slice l (Z.to_nat s) (Z.to_nat n)) with (piece l (i, s, n)).
      set (part := piece l (i, s, n)). rewrite (do_batch_inverse_spec K 1 true) by auto. f_equal.
      clear. rewrite map_map. induction part as [|x part IH]; [reflexivity|]. cbn [map combine fst snd]. rewrite IH. f_equal.
      unfold inv_of, eval0, value. destruct (feqb (den x) 0) eqn:E; [ring|].
      apply feqb_neq in E. field. auto. }
    rewrite E, IH. reflexivity.
  Qed.
End RationalProof.
