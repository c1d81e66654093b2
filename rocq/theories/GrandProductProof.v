(** Grand products: the running product, and the two ways of building it. *)
From Coq Require Import ZArith List Arith Bool Lia Permutation Ring Field Field_theory.
From Verif Require Import Field ParallelizeModel ParallelizeSpec ParallelizeProof ParallelizeExtra SemigroupModel SemigroupProof SemigroupExtra.
From Verif Require Import LookupModel GrandProductModel.
Import ListNotations.
Open Scope nat_scope.

Lemma nth_firstn_lt : forall {A} (l : list A) i n d, i < n -> nth i (firstn n l) d = nth i l d.
Proof. induction l as [|x l IH]; intros [|i] [|n] d H; try lia; cbn; auto. apply IH. lia. Qed.
Lemma nth_removelast : forall {A} (l : list A) i d, i < length l - 1 -> nth i (removelast l) d = nth i l d.
Proof.
  induction l as [|x l IH]; intros i d H; [cbn in H; lia|]. destruct l as [|y l]; [cbn in H; lia|]. change (removelast (x :: y :: l)) with (x :: removelast (y :: l)).
  destruct i as [|i]; [reflexivity|]. cbn [nth]. apply IH. cbn in *. lia.
Qed.
Lemma length_removelast : forall {A} (l : list A), length (removelast l) = length l - 1.
Proof. intros A l. destruct l as [|x l] using rev_ind; [reflexivity|]. rewrite removelast_last, app_length. cbn. lia. Qed.

Section Proofs.
  Variable K : fld.
  Add Field Kgp : (fld_theory K).
  Open Scope fld_scope.

  Lemma invert_map : forall {A} (f : A -> K) (l : list A), invert (map f l) = Some (map (fun x => if feqb (f x) 0 then 0 else finv (f x)) l).
  Proof.
    intros A f l. unfold invert. rewrite (batch_serial K true (map f l) (map f l) 1) by auto. rewrite map_map. f_equal. apply map_ext. intros x. destruct (feqb (f x) 0); [reflexivity|]. ring.
  Qed.
  Lemma combine_map_same : forall {A} (g : A -> K) (h : K * A -> K) (l : list A), map h (combine (map g l) l) = map (fun x => h (g x, x)) l.
  Proof. intros A g h l. induction l as [|x l IH]; [reflexivity|]. cbn. now rewrite IH. Qed.
  Lemma fold_mul : forall {A} (f : A -> K) (l : list A) z, fold_left (fun acc i => acc * f i) l z = z * fprod (map f l).
  Proof. intros A f l. induction l as [|x l IH]; intros z; cbn [fold_left map fprod]; [ring|]. rewrite IH. ring. Qed.

  Lemma running_length : forall u z (gp : list K), length (running z gp u) = S (length gp).
  Proof. induction u as [|u IH]; intros z [|g gp]; cbn [running length]; auto. Qed.
  Lemma running_nth : forall u z (gp : list K) i, (i <= u)%nat -> (u <= length gp)%nat -> nth i (running z gp u) 0 = z * fprod (firstn i gp).
  Proof.
    induction u as [|u IH]; intros z gp i Hi Hu.
    - replace i with 0%nat by lia. cbn. ring.
    - destruct gp as [|g gp]; [cbn in Hu; lia|]. cbn [running]. destruct i as [|i]; [cbn; ring|]. cbn [nth]. rewrite IH by (cbn in Hu; lia). cbn [firstn fprod]. ring.
  Qed.

  Lemma do_create_ok : forall n bf rnd from last_z (gp : list K), length gp = n -> (bf + 1 <= n)%nat ->
    let u := (n - (bf + 1))%nat in
    exists z from', do_create_poly n bf rnd from last_z gp = Some (z, last_z * fprod (firstn u gp), from') /\ length z = n /\
      (forall i, (i <= u)%nat -> cell z i = last_z * fprod (firstn i gp)).
  Proof.
    intros n bf rnd from last_z gp L Hn u. unfold do_create_poly. fold u.
    pose proof (length_removelast (running last_z gp u)) as Lr. rewrite running_length in Lr. replace (S (length gp) - 1)%nat with n in Lr by lia.
    unfold blind_rows. rewrite Lr. destruct (Nat.ltb_spec n bf); [lia|]. eexists. eexists. split.
    - unfold cell. rewrite running_nth by (subst u; lia). reflexivity.
    - split; [rewrite app_length, map_length, seq_length, firstn_length, Lr; lia|].
      intros i Hi. unfold cell. rewrite app_nth1 by (rewrite firstn_length, Lr; subst u; lia). rewrite nth_firstn_lt by (subst u; lia).
      rewrite nth_removelast by (rewrite running_length; subst u; lia). apply running_nth; subst u; lia.
  Qed.

  Lemma firstn_seq' : forall i a n, (i <= n)%nat -> firstn i (seq a n) = seq a i.
  Proof. induction i as [|i IH]; intros a [|n] H; [reflexivity|reflexivity|lia|]. cbn [seq firstn]. now rewrite IH by lia. Qed.
  Lemma fprod_seq_S : forall (f : nat -> K) i, fprod (map f (seq 0 (S i))) = fprod (map f (seq 0 i)) * f i.
  Proof. intros f i. rewrite seq_S, map_app, fprod_app. cbn. ring. Qed.
  Lemma fprod_map_mul' : forall {A} (f f' : A -> K) l, fprod (map (fun i => f i * f' i) l) = fprod (map f l) * fprod (map f' l).
  Proof. intros A f f' l. induction l as [|x l IH]; cbn [map fprod]; [ring|]. rewrite IH. ring. Qed.

  (** Both constructions give, at the usable rows, the product of the quotients. *)
  Definition quotient (num den : nat -> K) (j : nat) : K := (if feqb (den j) 0 then 0 else finv (den j)) * num j.

  Lemma serial_ok : forall n bf rnd from (num den : nat -> K), (bf + 1 <= n)%nat ->
    let u := (n - (bf + 1))%nat in
    (forall j, (j < u)%nat -> den j <> 0) ->
    exists z from', create_poly_serial n bf rnd from num den = Some (z, from') /\ length z = n /\ cell z 0 = 1 /\
      (forall i, (i < u)%nat -> cell z (S i) * den i = cell z i * num i) /\
      (forall i, (i <= u)%nat -> cell z i * fprod (map den (seq 0 i)) = fprod (map num (seq 0 i))).
  Proof.
    intros n bf rnd from num den Hn u Hd. unfold create_poly_serial. rewrite invert_map, combine_map_same. cbn [fst snd].
    destruct (do_create_ok n bf rnd from 1 (map (quotient num den) (seq 0 n))) as (z & from' & E & L & G); [now rewrite map_length, seq_length|exact Hn|]. fold u in G.
    change (map (fun x => (if feqb (den x) 0 then 0 else finv (den x)) * num x) (seq 0 n)) with (map (quotient num den) (seq 0 n)). rewrite E.
    assert (G' : forall i, (i <= u)%nat -> cell z i = fprod (map (quotient num den) (seq 0 i))).
    { intros i Hi. rewrite G by exact Hi. rewrite firstn_map, firstn_seq' by (subst u; lia). ring. }
    assert (Q : forall j, (j < u)%nat -> quotient num den j * den j = num j).
    { intros j Hj. unfold quotient. destruct (feqb (den j) 0) eqn:E0; [apply feqb_eq in E0; now apply Hd in E0|]. field. now apply Hd. }
    exists z, from'. split; [reflexivity|]. split; [exact L|]. split; [rewrite G' by lia; reflexivity|]. split.
    - intros i Hi. rewrite !G' by lia. rewrite fprod_seq_S. transitivity (fprod (map (quotient num den) (seq 0 i)) * (quotient num den i * den i)); [ring|]. now rewrite Q.
    - intros i Hi. rewrite G' by lia. induction i as [|i IH]; [cbn; ring|]. rewrite !fprod_seq_S, <- IH by lia. rewrite <- (Q i) by lia. ring.
  Qed.

  Lemma excessive_gp : forall threads n (num den : nat -> nat -> K) num_cols, (0 < threads)%Z -> (2 * Z.of_nat n + threads < 2 ^ 64)%Z ->
    all_chunks (map (excessive_chunk num den num_cols) (chunk_calls (Z.of_nat n) (size_per_thread threads (Z.of_nat n) None))) =
    Some (map (quotient (fun j => fprod (map (fun i => num i j) (seq 0 num_cols))) (fun j => fprod (map (fun i => den i j) (seq 0 num_cols)))) (seq 0 n)).
  Proof.
    intros threads n num den num_cols Ht Hb.
    destruct (parallelize_calls threads (Z.of_nat n) Ht ltac:(lia) Hb) as [HT _]. cbv zeta in HT.
    set (q := quotient _ _). set (calls := chunk_calls _ _) in *.
    pose proof (tiles_pointwise q calls 0%Z 0%Z _ ltac:(lia) HT) as TP. rewrite Z.sub_0_r, Nat2Z.id in TP. change (Z.to_nat 0) with 0%nat in TP. rewrite <- TP. clear TP HT.
    induction calls as [|[[i start] len] calls IH]; [reflexivity|]. cbn [map all_chunks concat fst snd]. unfold excessive_chunk at 1. rewrite invert_map, combine_map_same. cbn [fst snd].
    change (map (excessive_chunk num den num_cols) calls) with (map (excessive_chunk num den num_cols) calls). rewrite IH. cbn [option_map]. f_equal. f_equal.
    apply map_ext. intros j. unfold q, quotient. rewrite !fold_mul. replace (1 * fprod (map (fun i0 => den i0 j) (seq 0 num_cols))) with (fprod (map (fun i0 => den i0 j) (seq 0 num_cols))) by ring. reflexivity.
  Qed.

  Lemma excessive_ok : forall threads n bf rnd from (num den : nat -> nat -> K) num_cols last_z, (0 < threads)%Z -> (2 * Z.of_nat n + threads < 2 ^ 64)%Z -> (bf + 1 <= n)%nat ->
    let u := (n - (bf + 1))%nat in
    let N := fun j => fprod (map (fun i => num i j) (seq 0 num_cols)) in let D := fun j => fprod (map (fun i => den i j) (seq 0 num_cols)) in
    (forall i j, (i < num_cols)%nat -> (j < u)%nat -> den i j <> 0) ->
    exists z last from', create_excessive_poly threads n bf rnd from num den num_cols last_z = Some (z, last, from') /\ length z = n /\ cell z 0 = last_z /\ cell z u = last /\
      (forall i, (i < u)%nat -> cell z (S i) * D i = cell z i * N i) /\
      last * fprod (map D (seq 0 u)) = last_z * fprod (map N (seq 0 u)).
  Proof.
    intros threads n bf rnd from num den num_cols last_z Ht Hb Hn u N D Hd. unfold create_excessive_poly. rewrite excessive_gp by assumption. fold N D.
    destruct (do_create_ok n bf rnd from last_z (map (quotient N D) (seq 0 n))) as (z & from' & E & L & G); [now rewrite map_length, seq_length|exact Hn|]. fold u in E, G. rewrite E.
    assert (HD : forall j, (j < u)%nat -> D j <> 0).
    { intros j Hj. apply fprod_neq0. intros x Hx. apply in_map_iff in Hx. destruct Hx as (i & <- & Hi). apply in_seq in Hi. apply Hd; lia. }
    assert (G' : forall i, (i <= u)%nat -> cell z i = last_z * fprod (map (quotient N D) (seq 0 i))).
    { intros i Hi. rewrite G by exact Hi. now rewrite firstn_map, firstn_seq' by (subst u; lia). }
    assert (Q : forall j, (j < u)%nat -> quotient N D j * D j = N j).
    { intros j Hj. unfold quotient. destruct (feqb (D j) 0) eqn:E0; [apply feqb_eq in E0; now apply HD in E0|]. field. now apply HD. }
    eexists. eexists. eexists. split; [reflexivity|]. split; [exact L|]. split; [rewrite G' by lia; cbn; ring|]. split; [rewrite G by lia; reflexivity|]. split.
    - intros i Hi. rewrite !G' by lia. rewrite fprod_seq_S. transitivity (last_z * fprod (map (quotient N D) (seq 0 i)) * (quotient N D i * D i)); [ring|]. now rewrite Q.
    - rewrite <- G by lia. rewrite G' by lia. assert (H : forall i, (i <= u)%nat -> fprod (map (quotient N D) (seq 0 i)) * fprod (map D (seq 0 i)) = fprod (map N (seq 0 i))).
      { induction i as [|i IH]; intros Hi; [cbn; ring|]. rewrite !fprod_seq_S, <- IH by lia. rewrite <- (Q i) by lia. ring. }
      rewrite <- (H u) by lia. ring.
  Qed.
End Proofs.
