(** Dense arithmetic: ring operations and division. *)
From Coq Require Import ZArith List Bool Arith Lia Ring Field Field_theory Permutation.
From Verif Require Import Field BigIntModel ParallelizeModel ParallelizeProof SemigroupModel PolyModel PolySpec PolyProof.
Import ListNotations.
Open Scope fld_scope.

Section P.
  Variable K : fld.
  Add Field KfP2 : (fld_theory K).

  Lemma map_canonical (f : K -> K) l : (forall x, f x = 0 -> x = 0) -> canonical l -> canonical (map f l).
  Proof.
    intros Hf H. destruct l as [|x l]; [exact (canonical_nil K)|]. revert H. unfold canonical.
    destruct (exists_last (l := x :: l)) as (l' & y & E); [discriminate|]. rewrite E, map_app. cbn [map]. rewrite !last_last. auto.
  Qed.
  Lemma dense_make_id md (l : list K) : (Z.of_nat (degree l) <= md)%Z -> dense_make md false l = Some l.
  Proof. intros H. unfold dense_make. rewrite (proj2 (Z.leb_le _ _) H). reflexivity. Qed.
  Lemma dense_make_clean md (l : list K) : (Z.of_nat (degree l) <= md)%Z -> dense_make md true l = Some (remove_high l).
  Proof.
    intros H. unfold dense_make. rewrite (proj2 (Z.leb_le _ _)); [reflexivity|].
    pose proof (remove_high_length K l). rewrite !degree_eq in *. lia.
  Qed.

  Lemma add_spec (a b : list K) : canonical a -> canonical b -> represents (dense_add a b) (fun i => coeff a i + coeff b i).
  Proof.
    intros Ha Hb. unfold dense_add. destruct (is_zero a) eqn:Ea.
    { split; auto. intros i. rewrite (is_zero_coeff K a i Ea). ring. }
    destruct (is_zero b) eqn:Eb.
    { split; auto. intros i. rewrite (is_zero_coeff K b i Eb). ring. }
    apply remove_high_represents. intros i. rewrite coeff_map_seq, !at_coeff.
    destruct (Nat.ltb_spec i (Nat.max (length a) (length b))); [reflexivity|].
    rewrite !coeff_over by lia. ring.
  Qed.
  Lemma pad_coeff (a : list K) n i : coeff (a ++ repeat 0 n) i = coeff a i.
  Proof. rewrite coeff_app, coeff_repeat. destruct (Nat.ltb_spec i (length a)); [reflexivity|]. rewrite coeff_over; auto. Qed.
  Lemma add_in_place_spec (a b : list K) : canonical a -> canonical b -> dense_add_in_place a b = dense_add a b.
  Proof.
    intros Ha Hb. eapply represents_unique; [|apply add_spec; auto].
    unfold dense_add_in_place. destruct (is_zero a) eqn:Ea.
    { split; auto. intros i. rewrite (is_zero_coeff K a i Ea). ring. }
    destruct (is_zero b) eqn:Eb.
    { split; auto. intros i. rewrite (is_zero_coeff K b i Eb). ring. }
    apply remove_high_represents. intros i. rewrite coeff_map_seq, !at_coeff, pad_coeff, app_length, repeat_length.
    destruct (Nat.ltb_spec i (length a + (Nat.max (length a) (length b) - length a))).
    - destruct (Nat.ltb_spec i (length b)); [reflexivity|]. rewrite (coeff_over K b) by lia. ring.
    - rewrite !coeff_over by lia. ring.
  Qed.
  Lemma neg0 : - (0 : K) = 0. Proof. ring. Qed.
  Lemma neg_canonical (a : list K) : canonical a -> canonical (map (fun x => - x) a).
  Proof. apply map_canonical. intros x H. apply fopp_eq0. exact H. Qed.
  Lemma degree_map (f : K -> K) l : degree (map f l) = degree l.
  Proof. rewrite !degree_eq, map_length. reflexivity. Qed.
  Lemma negate_spec md (a : list K) : canonical a -> (Z.of_nat (degree a) <= md)%Z ->
    exists l, dense_negate md a = Some l /\ represents l (fun i => - coeff a i).
  Proof.
    intros Ha Hd. unfold dense_negate. destruct (is_zero a) eqn:Ea.
    { eexists; split; [reflexivity|]. split; auto. intros i. rewrite (is_zero_coeff K a i Ea). ring. }
    rewrite dense_make_id by (rewrite degree_map; exact Hd). eexists; split; [reflexivity|].
    split; [apply neg_canonical; exact Ha|]. intros i. apply coeff_map. apply neg0.
  Qed.
  Lemma negate_in_place_spec (a : list K) : canonical a -> represents (dense_negate_in_place a) (fun i => - coeff a i).
  Proof.
    intros Ha. unfold dense_negate_in_place. destruct (is_zero a) eqn:Ea.
    { split; auto. intros i. rewrite (is_zero_coeff K a i Ea). ring. }
    apply remove_high_represents. intros i. apply coeff_map. apply neg0.
  Qed.
  Lemma sub_spec md (a b : list K) : canonical a -> canonical b -> (Z.of_nat (degree b) <= md)%Z ->
    exists l, dense_sub md a b = Some l /\ dense_sub_in_place md a b = Some l /\ represents l (fun i => coeff a i - coeff b i).
  Proof.
    intros Ha Hb Hd. unfold dense_sub, dense_sub_in_place. destruct (is_zero a) eqn:Ea.
    { destruct (negate_spec md b Hb Hd) as (l & E & R). exists l. split; [exact E|]. split; [exact E|].
      eapply represents_ext; [exact R|]. intros i. cbv beta. rewrite (is_zero_coeff K a i Ea). ring. }
    destruct (is_zero b) eqn:Eb.
    { exists a. split; [reflexivity|]. split; [reflexivity|]. split; auto. intros i. rewrite (is_zero_coeff K b i Eb). ring. }
    assert (R1 : represents (remove_high (map (fun i => at_ a i - at_ b i) (seq 0 (Nat.max (length a) (length b))))) (fun i => coeff a i - coeff b i)).
    { apply remove_high_represents. intros i. rewrite coeff_map_seq, !at_coeff.
      destruct (Nat.ltb_spec i (Nat.max (length a) (length b))); [reflexivity|]. rewrite !coeff_over by lia. ring. }
    eexists. split; [reflexivity|]. split; [|exact R1]. f_equal. eapply represents_unique; [|exact R1].
    apply remove_high_represents. intros i. rewrite coeff_map_seq, !at_coeff, pad_coeff, app_length, repeat_length.
    destruct (Nat.ltb_spec i (length a + (Nat.max (length a) (length b) - length a))).
    - destruct (Nat.ltb_spec i (length b)); [reflexivity|]. rewrite (coeff_over K b) by lia. ring.
    - rewrite !coeff_over by lia. ring.
  Qed.
  Lemma mul_scalar_spec md (a : list K) s : canonical a -> (Z.of_nat (degree a) <= md)%Z ->
    exists l, dense_mul_scalar md a s = Some l /\ represents l (fun i => coeff a i * s).
  Proof.
    intros Ha Hd. unfold dense_mul_scalar. destruct (is_zero a) eqn:Ea.
    { exists a. split; [reflexivity|]. split; auto. intros i. rewrite (is_zero_coeff K a i Ea). ring. }
    cbn [orb]. destruct (isone s) eqn:E1.
    { apply isone_eq in E1. subst s. exists a. split; [reflexivity|]. split; auto. intros i. ring. }
    destruct (iszero s) eqn:E0.
    { apply iszero_eq in E0. subst s. exists []. split; [reflexivity|]. split; [exact (canonical_nil K)|]. intros i. rewrite coeff_over by (cbn; lia). ring. }
    apply iszero_neq in E0. rewrite dense_make_id by (rewrite degree_map; exact Hd). eexists. split; [reflexivity|]. split.
    - apply map_canonical; auto. intros x Hx. destruct (fmul_integral K _ _ Hx); [assumption|contradiction].
    - intros i. rewrite (coeff_map K (fun x => x * s)); [reflexivity|ring].
  Qed.
  Lemma mul_scalar_in_place_spec (a : list K) s : canonical a -> represents (dense_mul_scalar_in_place a s) (fun i => coeff a i * s).
  Proof.
    intros Ha. unfold dense_mul_scalar_in_place. destruct (is_zero a) eqn:Ea.
    { cbn [orb]. split; auto. intros i. rewrite (is_zero_coeff K a i Ea). ring. }
    cbn [orb]. destruct (isone s) eqn:E1.
    { apply isone_eq in E1. subst s. split; auto. intros i. ring. }
    apply remove_high_represents. intros i. rewrite (coeff_map K (fun x => x * s)); [reflexivity|ring].
  Qed.
  Lemma div_scalar_spec md (a : list K) s : canonical a -> (Z.of_nat (degree a) <= md)%Z -> s <> 0 ->
    exists l, dense_div_scalar md a s = Some (Some l) /\ dense_div_scalar_in_place a s = Some l /\
      represents l (fun i => coeff a i / s).
  Proof.
    intros Ha Hd Hs. unfold dense_div_scalar, dense_div_scalar_in_place. rewrite (proj2 (iszero_neq K s) Hs).
    destruct (mul_scalar_spec md a (finv s) Ha Hd) as (l & E & R). exists l. rewrite E. split; [reflexivity|].
    split; [f_equal; eapply represents_unique; [apply mul_scalar_in_place_spec; exact Ha|exact R]|].
    eapply represents_ext; [exact R|]. intros i. cbv beta. field. exact Hs.
  Qed.

  (** ** Multiplication *)
  Definition row (a : list K) (i : nat) (v : K) : list (nat * K) := map (fun j => ((i + j)%nat, coeff a j * v)) (seq 0 (length a)).
  Lemma row_sum (a : list K) i v k : wsum K (row a i v) k = if Nat.leb i k then coeff a (k - i) * v else 0.
  Proof.
    unfold row. rewrite (wsum_row K (fun j => coeff a j * v)).
    destruct (Nat.leb i k); cbn [andb]; [|reflexivity]. destruct (Nat.ltb_spec (k - i) (length a)); [reflexivity|].
    rewrite coeff_over by lia. ring.
  Qed.
  Lemma row_ok (a : list K) i v n : (a = [] \/ i + length a <= n)%nat -> Forall (fun kv => (fst kv < n)%nat) (row a i v).
  Proof.
    intros H. apply Forall_forall. intros kv Hin. apply in_map_iff in Hin. destruct Hin as (j & <- & Hj). apply in_seq in Hj.
    cbn [fst]. destruct H as [->|H]; cbn in *; lia.
  Qed.
  Lemma row_loop (a : list K) i v c : ofold (fun c j => match nth_error a j with
                               | None => None
                               | Some aj => add_at c (i + j) (aj * v) end) (seq 0 (length a)) c = writes K (row a i v) c.
  Proof.
    unfold writes, row. rewrite ofold_map. apply ofold_ext. intros c' j Hj. apply in_seq in Hj.
    rewrite coeff_nth_error by lia. reflexivity.
  Qed.
  (** the convolution with [b]'s entries listed *)
  Lemma conv_list (a : list K) (g : nat -> K) n k : (forall i, (n <= i)%nat -> g i = 0) ->
    fsum (map (fun i => if Nat.leb i k then coeff a (k - i) * g i else 0) (seq 0 n)) = conv (coeff a) g k.
  Proof.
    intros Hz. rewrite conv_comm. unfold conv.
    set (h := fun i => if Nat.leb i k then coeff a (k - i) * g i else 0).
    assert (H1 : fsum (map h (seq 0 (Nat.max n (S k)))) = fsum (map h (seq 0 n))).
    { apply fsum_seq_pad; [lia|]. intros i Hi. unfold h. rewrite Hz by lia. destruct (Nat.leb i k); ring. }
    rewrite <- H1, (fsum_seq_pad K h (S k)); [|lia|].
    - apply fsum_map_ext. intros i Hi. apply in_seq in Hi. unfold h. destruct (Nat.leb_spec i k); [ring|lia].
    - intros i Hi. unfold h. destruct (Nat.leb_spec i k); [lia|reflexivity].
  Qed.
  Lemma do_mul_spec (a b : list K) : a <> [] -> b <> [] ->
    exists l, dense_do_mul a b = Some l /\ represents l (conv (coeff a) (coeff b)).
  Proof.
    intros Ha Hb. unfold dense_do_mul.
    rewrite (ofold_ext _ (fun c i => writes K (if iszero (coeff b i) then [] else row a i (coeff b i)) c)).
    2:{ intros c i Hi. apply in_seq in Hi. rewrite coeff_nth_error by lia.
        destruct (iszero (coeff b i)); [reflexivity|]. apply row_loop. }
    unfold writes. rewrite <- ofold_flat.
    set (ws := flat_map _ _). destruct (writes_spec K ws (repeat 0 (degree a + degree b + 1))) as (c & E & L & C).
    { apply Forall_flat_map, Forall_forall. intros i Hi. apply in_seq in Hi. destruct (iszero (coeff b i)); [constructor|].
      apply row_ok. right. rewrite repeat_length. pose proof (degree_length K a Ha). pose proof (degree_length K b Hb). lia. }
    unfold writes in E. rewrite E. eexists. split; [reflexivity|]. apply remove_high_represents. intros k.
    rewrite C, coeff_repeat. unfold ws. rewrite wsum_flat.
    rewrite (fsum_map_ext K _ (fun i => if Nat.leb i k then coeff a (k - i) * coeff b i else 0)).
    2:{ intros i Hi. destruct (iszero (coeff b i)) eqn:Ez.
        - apply iszero_eq in Ez. rewrite Ez. unfold wsum. cbn. destruct (Nat.leb i k); ring.
        - apply row_sum. }
    rewrite conv_list by (intros; apply coeff_over; assumption). ring.
  Qed.
  Lemma mul_spec (a b : list K) : canonical a -> canonical b ->
    exists l, dense_mul a b = Some l /\ dense_mul_in_place a b = Some l /\ represents l (conv (coeff a) (coeff b)).
  Proof.
    intros Ha Hb.
    assert (Z1 : forall g, represents ([] : list K) g <-> (forall i, 0 = g i)).
    { intros g. split; [intros [_ H] i; rewrite <- H; symmetry; apply coeff_over; cbn; lia|].
      intros H. split; [exact (canonical_nil K)|]. intros i. rewrite coeff_over by (cbn; lia). apply H. }
    unfold dense_mul, dense_mul_in_place. destruct (is_zero a) eqn:Ea.
    { apply is_zero_nil in Ea. subst a. exists []. cbn [orb]. repeat split; auto. intros i.
      rewrite coeff_over by (cbn; lia). symmetry. apply conv_zero_l. intros. apply coeff_over. cbn. lia. }
    destruct (is_zero b) eqn:Eb.
    { apply is_zero_nil in Eb. subst b. exists []. cbn [orb is_one].
      split; [reflexivity|]. split; [destruct (is_one a); reflexivity|]. split; auto. intros i.
      rewrite conv_comm, coeff_over by (cbn; lia). symmetry. apply conv_zero_l. intros. apply coeff_over. cbn. lia. }
    cbn [orb]. destruct (is_one a) eqn:E1.
    { apply is_one_eq in E1. subst a. exists b. split; [reflexivity|]. split.
      - destruct (is_one b) eqn:E2; [|reflexivity]. apply is_one_eq in E2. subst b. reflexivity.
      - split; auto. intros i. rewrite conv_one. reflexivity. }
    destruct (is_one b) eqn:E2.
    { apply is_one_eq in E2. subst b. exists a. split; [reflexivity|]. split; [reflexivity|]. split; auto.
      intros i. rewrite conv_comm, conv_one. reflexivity. }
    destruct (do_mul_spec a b (is_zero_not K a Ea) (is_zero_not K b Eb)) as (l & E & R). exists l. auto.
  Qed.

  (** ** Division *)
  Section Divide.
    Variables (o : nat -> K) (dd : nat).
    Hypothesis Ho : forall j, (dd < j)%nat -> o j = 0.
    Hypothesis Hlead : o dd <> 0.
    Variable upd : list K -> nat -> K -> option (list K).
    Hypothesis Hupd : forall r d qc, (d + dd < length r)%nat -> exists r', upd r d qc = Some r' /\ length r' = length r /\
      forall k, coeff r' k = coeff r k - (if Nat.leb d k then qc * o (k - d)%nat else 0).

    Lemma divide_loop_spec fuel : forall q r (self : nat -> K), canonical r -> (length r <= fuel)%nat ->
      (length r <= length q + dd)%nat -> (forall i, (i + dd < length r)%nat -> coeff q i = 0) ->
      (forall k, self k = conv (coeff q) o k + coeff r k) ->
      exists q' r', divide_loop upd dd (finv (o dd)) fuel q r = Some (q', r') /\ length q' = length q /\ canonical r' /\
        (length r' <= dd)%nat /\ (forall k, self k = conv (coeff q') o k + coeff r' k) /\
        (forall i, (length r < dd + 1 + i)%nat -> coeff q' i = coeff q i) /\
        (forall i, (length r = dd + 1 + i)%nat -> coeff q' i = coeff r (i + dd)%nat * finv (o dd)).
    Proof.
      induction fuel as [|fuel IH]; intros q r self Hr Hf Hq Hq0 Hself.
      - destruct r; [|cbn in Hf; lia]. exists q, []. cbn. repeat split; auto; lia.
      - cbn [divide_loop]. destruct (is_zero r || Nat.ltb (degree r) dd) eqn:Est.
        + exists q, r. split; [reflexivity|]. split; [reflexivity|]. split; [exact Hr|].
          assert (Hd : (length r <= dd)%nat).
          { apply orb_prop in Est. destruct Est as [E|E]; [apply is_zero_nil in E; subst; cbn; lia|].
            apply Nat.ltb_lt in E. rewrite degree_eq in E. lia. }
          repeat split; auto. intros i Hi. lia.
        + apply orb_false_elim in Est. destruct Est as [E1 E2]. apply Nat.ltb_ge in E2.
          pose proof (is_zero_not K r E1) as Hrn. pose proof (degree_length K r Hrn) as HL.
          set (d := (degree r - dd)%nat). set (qc := leading r * finv (o dd)).
          destruct (store_at_spec K q d qc ltac:(lia)) as (q1 & S1 & L1 & C1). rewrite S1.
          destruct (Hupd r d qc ltac:(lia)) as (r1 & U1 & LU & CU). rewrite U1.
          assert (Hr1 : forall k, (degree r <= k)%nat -> coeff r1 k = 0).
          { intros k Hk. rewrite CU. destruct (Nat.leb_spec d k); [|lia]. destruct (Nat.eq_dec k (degree r)) as [->|Hne].
            - replace (degree r - d)%nat with dd by lia. unfold qc. rewrite leading_coeff. field. exact Hlead.
            - rewrite Ho by lia. rewrite coeff_over by lia. ring. }
          pose proof (canonical_length_le K (remove_high r1) (degree r) (remove_high_canonical K r1)
            ltac:(intros; rewrite remove_high_coeff; auto)) as Hlen.
          destruct (IH q1 (remove_high r1) self) as (q' & r' & E' & L' & C' & D' & S' & T' & _).
          * apply remove_high_canonical.
          * lia.
          * lia.
          * intros i Hi. rewrite C1. destruct (Nat.eqb_spec i d); [lia|]. apply Hq0. lia.
          * intros k. rewrite remove_high_coeff, CU, Hself.
            rewrite (conv_ext K (coeff q1) (fun i => coeff q i + (if Nat.eqb i d then qc else 0)) o o); auto.
            2:{ intros i. rewrite C1. destruct (Nat.eqb_spec i d) as [->|]; [rewrite Hq0 by lia; ring|ring]. }
            rewrite conv_add, conv_delta. ring.
          * exists q', r'. split; [exact E'|]. split; [congruence|]. repeat split; auto.
            -- intros i Hi. rewrite T' by lia. rewrite C1. destruct (Nat.eqb_spec i d); [lia|reflexivity].
            -- intros i Hi. rewrite T' by lia. rewrite C1. destruct (Nat.eqb_spec i d); [|lia].
               unfold qc. rewrite leading_coeff. f_equal. f_equal. lia.
    Qed.

    Lemma divide_gen_spec md (self : list K) od : canonical self -> self <> [] -> (Z.of_nat (degree self) <= md)%Z ->
      exists q r, divide_gen md upd false dd (o dd) od self = Some (Some (q, r)) /\ canonical q /\ canonical r /\
        (length r <= dd)%nat /\ forall k, coeff self k = conv (coeff q) o k + coeff r k.
    Proof.
      intros Hs Hn Hd. unfold divide_gen. destruct (is_zero self) eqn:Ez; [apply is_zero_nil in Ez; contradiction|].
      pose proof (degree_length K self Hn) as HL.
      destruct (Nat.ltb_spec (degree self) dd) as [Hlt|Hge].
      { exists [], self. split; [reflexivity|]. split; [exact (canonical_nil K)|]. split; [exact Hs|]. split; [lia|].
        intros k. rewrite conv_zero_l by (intros; apply coeff_over; cbn; lia). ring. }
      rewrite (proj2 (iszero_neq K _) Hlead).
      destruct (divide_loop_spec (length self) (repeat 0 (degree self - dd + 1)) self (coeff self)) as (q & r & E & L & C & D & S & T & U).
      - exact Hs.
      - lia.
      - rewrite repeat_length. lia.
      - intros. apply coeff_repeat.
      - intros k. rewrite conv_zero_l by (intros; apply coeff_repeat). ring.
      - rewrite E. rewrite repeat_length in L. rewrite dense_make_id by (rewrite degree_eq, L; lia).
        exists (remove_high q), r. split; [reflexivity|]. split; [apply remove_high_canonical|]. split; [exact C|]. split; [exact D|].
        intros k. rewrite S. f_equal. apply conv_ext; auto. intros. rewrite remove_high_coeff. reflexivity.
    Qed.
  End Divide.

  Lemma upd_dense_spec (other r : list K) d qc : (d + length other <= length r)%nat -> exists r', upd_dense other r d qc = Some r' /\ length r' = length r /\
      forall k, coeff r' k = coeff r k - (if Nat.leb d k then qc * coeff other (k - d)%nat else 0).
  Proof.
    intros H. unfold upd_dense.
    rewrite (ofold_ext _ (fun r i => add_at r (d + i) (- (qc * coeff other i)))).
    2:{ intros c i Hi. apply in_seq in Hi. rewrite coeff_nth_error by lia. reflexivity. }
    set (w := map (fun j => ((d + j)%nat, - (qc * coeff other j))) (seq 0 (length other))).
    destruct (writes_spec K w r) as (c & E & L & C).
    { apply Forall_forall. intros kv Hin. apply in_map_iff in Hin. destruct Hin as (j & <- & Hj). apply in_seq in Hj. cbn [fst]. lia. }
    exists c. split; [unfold writes, w in E; rewrite ofold_map in E; exact E|]. split; [exact L|].
    intros k. rewrite C. unfold w. rewrite (wsum_row K (fun j => - (qc * coeff other j))).
    destruct (Nat.leb d k); cbn [andb]; [|ring]. destruct (Nat.ltb_spec (k - d) (length other)); [ring|].
    rewrite (coeff_over K other) by lia. ring.
  Qed.
  Lemma dense_divide_spec md (self other : list K) : canonical self -> canonical other -> self <> [] -> other <> [] ->
    (Z.of_nat (degree self) <= md)%Z ->
    exists q r, dense_divide md self other = Some (Some (q, r)) /\ canonical q /\ canonical r /\ smaller r other /\
      forall k, coeff self k = conv (coeff q) (coeff other) k + coeff r k.
  Proof.
    intros Hs Ho Hsn Hon Hd. unfold dense_divide. pose proof (degree_length K other Hon) as HL.
    destruct (is_zero other) eqn:Ez; [apply is_zero_nil in Ez; contradiction|].
    rewrite leading_coeff.
    destruct (divide_gen_spec (coeff other) (degree other)) with (upd := upd_dense other) (md := md) (self := self) (od := Some other)
      as (q & r & E & Cq & Cr & D & S); auto.
    - intros. apply coeff_over. lia.
    - replace (degree other) with (length other - 1)%nat by lia. apply canonical_lead; auto.
    - intros. apply upd_dense_spec. lia.
    - exists q, r. unfold smaller. repeat split; auto. lia.
  Qed.
  Lemma conv_top (f g : nat -> K) m n : (forall i, (m < i)%nat -> f i = 0) -> (forall i, (n < i)%nat -> g i = 0) ->
    conv f g (m + n) = f m * g n.
  Proof.
    intros Hf Hg. unfold conv. rewrite (fsum_map_ext K _ (fun i => if Nat.eqb i m then f m * g n else 0)).
    - rewrite (fsum_delta K (fun _ => f m * g n)). destruct (Nat.leb_spec 0 m), (Nat.ltb_spec m (0 + S (m + n))); cbn; try lia; reflexivity.
    - intros i Hi. apply in_seq in Hi. destruct (Nat.eqb_spec i m) as [->|Hne].
      + replace (m + n - m)%nat with n by lia. reflexivity.
      + destruct (lt_dec m i); [rewrite Hf by lia; ring|]. rewrite Hg by lia. ring.
  Qed.
  Lemma division_unique (o q1 r1 q2 r2 : list K) : canonical o -> o <> [] -> canonical q1 -> canonical q2 -> canonical r1 -> canonical r2 ->
    smaller r1 o -> smaller r2 o ->
    (forall k, conv (coeff q1) (coeff o) k + coeff r1 k = conv (coeff q2) (coeff o) k + coeff r2 k) -> q1 = q2 /\ r1 = r2.
  Proof.
    intros Ho Hon Hq1 Hq2 Hr1 Hr2 S1 S2 H. unfold smaller in *.
    destruct (sub_spec (Z.of_nat (degree q2)) q1 q2 Hq1 Hq2 ltac:(lia)) as (e & _ & _ & Re & Ce).
    assert (He : e = []).
    { destruct e as [|x e0] eqn:Ee; [reflexivity|]. rewrite <- Ee in *. exfalso.
      assert (Hen : e <> []) by (rewrite Ee; discriminate). clear Ee.
      pose proof (canonical_lead K e Re Hen) as Hl. pose proof (canonical_lead K o Ho Hon) as Hlo.
      set (m := (length e - 1)%nat) in *. set (n := (length o - 1)%nat) in *.
      assert (Hlen : (0 < length e /\ 0 < length o)%nat) by (destruct e, o; cbn; try congruence; lia).
      assert (HX : conv (coeff e) (coeff o) (m + n) = 0).
      { rewrite (conv_ext K (coeff e) (fun i => coeff q1 i + - coeff q2 i) (coeff o) (coeff o)); auto.
        2:{ intros i. rewrite Ce. ring. }
        rewrite conv_add, (conv_opp K (coeff q2)). pose proof (H (m + n)%nat) as HH.
        rewrite (coeff_over K r1), (coeff_over K r2) in HH by lia.
        replace (conv (coeff q1) (coeff o) (m + n)) with (conv (coeff q1) (coeff o) (m + n) + 0) by ring.
        rewrite HH. ring. }
      rewrite (conv_top (coeff e) (coeff o) m n) in HX by (intros; apply coeff_over; lia).
      destruct (fmul_integral K _ _ HX); contradiction. }
    assert (Eq : q1 = q2).
    { apply canonical_unique; auto. intros i. apply fsub_eq0. rewrite <- Ce, He. apply coeff_over. cbn. lia. }
    split; [exact Eq|]. subst q2. apply canonical_unique; auto. intros i. specialize (H i).
    replace (coeff r1 i) with (conv (coeff q1) (coeff o) i + coeff r1 i - conv (coeff q1) (coeff o) i) by ring. rewrite H. ring.
  Qed.
  Lemma dense_divide_zero_divisor md (self : list K) : dense_divide md self [] = Some None.
  Proof. reflexivity. Qed.
  Lemma dense_divide_zero_self md (other : list K) : other <> [] -> dense_divide md [] other = Some (Some ([], other)).
  Proof. intros H. unfold dense_divide, divide_gen. destruct other; [congruence|]. reflexivity. Qed.
End P.
