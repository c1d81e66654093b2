(** Poseidon2: the matrices and the permutation. *)
From Coq Require Import ZArith List Bool Arith Lia Ring Field Field_theory.
From Verif Require Import Field BigIntModel SemigroupModel PolyModel PoseidonModel PoseidonSpec PoseidonProof PoseidonProof2.
Import ListNotations.

Section P2.
  Variable K : fld.
  Add Field Kps7 : (fld_theory K).
  Open Scope fld_scope.
  Notation veq := (veq K).
  Definition m4 (d : vendor) : pmat K := match d with Horizen => m4_horizen | Plonky3 => m4_plonky3 end.

  Lemma do_apply_ok d (u : pvec K) r : (r < 4)%nat -> do_apply d u r = mv 4 (m4 d) u r.
  Proof.
    intros Hr. unfold mv. cbn [seq map fsum].
    destruct d; (destruct r as [|[|[|[|r]]]]; [| | | |lia]);
      cbn [do_apply do_apply_horizen do_apply_plonky3 m4 m4_horizen m4_plonky3 of_rows nth fnat]; unfold of_rows; cbn [nth fnat]; ring.
  Qed.
  Lemma do_construct_ok d i j : do_construct d i j = m4 d i j.
  Proof. destruct d; reflexivity. Qed.

  Lemma sum4 (f : nat -> K) q : fsum (map f (seq 0 (4 * q))) =
    fsum (map (fun b => fsum (map (fun r => f (4 * b + r)%nat) (seq 0 4))) (seq 0 q)).
  Proof.
    induction q as [|q IH]; [reflexivity|].
    replace (4 * S q)%nat with (4 * q + 4)%nat by lia. rewrite seq_app, map_app, fsum_app, IH, (seq_S q 0), map_app, fsum_app.
    f_equal. rewrite !Nat.add_0_l. cbn [seq map fsum]. rewrite ?Nat.add_0_l, ?Nat.add_0_r.
    replace (S (4 * q))%nat with (4 * q + 1)%nat by lia. replace (S (4 * q + 1))%nat with (4 * q + 2)%nat by lia.
    replace (S (4 * q + 2))%nat with (4 * q + 3)%nat by lia. ring.
  Qed.
  Lemma divmod4 b r : (r < 4)%nat -> Nat.div (4 * b + r) 4 = b /\ Nat.modulo (4 * b + r) 4 = r.
  Proof.
    intros H. split.
    - symmetry. apply (Nat.div_unique _ 4 b r H). reflexivity.
    - symmetry. apply (Nat.mod_unique _ 4 b r H). reflexivity.
  Qed.
  Lemma by_four_mul q : by_four (4 * q) = map (fun i => (4 * i)%nat) (seq 0 q).
  Proof. unfold by_four. rewrite Nat.mul_comm, Nat.div_mul by lia. reflexivity. Qed.

  Lemma do_apply_ext d (u v : pvec K) r : (forall j, (j < 4)%nat -> u j = v j) -> (r < 4)%nat -> do_apply d u r = do_apply d v r.
  Proof. intros H Hr. rewrite !do_apply_ok by exact Hr. apply mv_ext; [intros; reflexivity|exact H]. Qed.
  Lemma blocks_ok d c (v : pvec K) : forall b r, (r < 4)%nat ->
    fold_left (apply_block d) (map (fun i => (4 * i)%nat) (seq 0 c)) v (4 * b + r)%nat =
    if Nat.ltb b c then do_apply d (fun j => v (4 * b + j)%nat) r else v (4 * b + r)%nat.
  Proof.
    induction c as [|c IH]; intros b r Hr.
    - cbn [seq map fold_left]. reflexivity.
    - rewrite seq_S, map_app, fold_left_app. cbn [map fold_left Nat.add].
      set (u := fold_left (apply_block d) (map (fun i => (4 * i)%nat) (seq 0 c)) v) in *.
      unfold apply_block at 1. destruct (Nat.eq_dec b c) as [->|Ne].
      + assert (E : (Nat.leb (4 * c) (4 * c + r) && Nat.ltb (4 * c + r) (4 * c + 4))%bool = true).
        { apply andb_true_intro. split; [apply Nat.leb_le; lia|apply Nat.ltb_lt; lia]. }
        rewrite E. replace (4 * c + r - 4 * c)%nat with r by lia.
        destruct (Nat.ltb_spec c (S c)); [|lia]. apply do_apply_ext; [|exact Hr].
        intros j Hj. rewrite IH by exact Hj. rewrite Nat.ltb_irrefl. reflexivity.
      + assert (E : (Nat.leb (4 * c) (4 * b + r) && Nat.ltb (4 * b + r) (4 * c + 4))%bool = false).
        { destruct (Nat.leb_spec (4 * c) (4 * b + r)), (Nat.ltb_spec (4 * b + r) (4 * c + 4)); try lia; reflexivity. }
        rewrite E. rewrite IH by exact Hr. destruct (Nat.ltb_spec b c), (Nat.ltb_spec b (S c)); try lia; reflexivity.
  Qed.

  Lemma two_ones w mu (v : pvec K) i : (i < w)%nat ->
    mv w (ones_with_diagonal mu) v i = (mu i - 1) * v i + fsum (map v (seq 0 w)).
  Proof.
    intros Hi. unfold mv.
    transitivity (fsum (map (fun j => (if Nat.eqb i j then (mu i - 1) * v j else 0) + v j) (seq 0 w))).
    { apply fsum_map_ext. intros j _. unfold ones_with_diagonal. destruct (Nat.eqb i j); ring. }
    rewrite fsum_map_add. f_equal. rewrite (sum_one K _ w i Hi); [rewrite Nat.eqb_refl; reflexivity|].
    intros j _ Hn. destruct (Nat.eqb_spec i j); [congruence|reflexivity].
  Qed.

  Lemma external_ok d w (v : pvec K) : supported_width w ->
    exists y, external_apply d w v = Some y /\ veq w y (mv w (external_matrix (m4 d) w) v).
  Proof.
    intros [Hw Hc]. unfold external_apply, external_matrix.
    assert (E1 : (Nat.leb w 1 || Nat.ltb 24 w)%bool = false).
    { destruct (Nat.leb_spec w 1), (Nat.ltb_spec 24 w); try lia; reflexivity. }
    rewrite E1. destruct (Nat.eqb_spec w 2) as [->|N2].
    { eexists. split; [reflexivity|]. intros i Hi. cbn [Nat.leb]. rewrite two_ones by exact Hi. cbn [seq map fsum fnat].
      destruct i as [|[|i]]; [| |lia]; ring. }
    destruct (Nat.eqb_spec w 3) as [->|N3].
    { eexists. split; [reflexivity|]. intros i Hi. cbn [Nat.leb]. rewrite two_ones by exact Hi. cbn [seq map fsum fnat].
      destruct i as [|[|[|i]]]; [| | |lia]; ring. }
    destruct (Nat.leb_spec w 3); [lia|].
    destruct (Nat.eqb_spec w 4) as [->|N4].
    { eexists. split; [reflexivity|]. intros i Hi. apply do_apply_ok. exact Hi. }
    destruct Hc as [Hc|[q ->]]; [lia|].
    rewrite (Nat.mul_comm 4 q), Nat.mod_mul by lia. rewrite (Nat.mul_comm q 4). cbn [Nat.eqb].
    eexists. split; [reflexivity|]. rewrite by_four_mul. set (u := fold_left (apply_block d) (map (fun i => (4 * i)%nat) (seq 0 q)) v).
    assert (U : forall b r, (b < q)%nat -> (r < 4)%nat -> u (4 * b + r)%nat = mv 4 (m4 d) (fun j => v (4 * b + j)%nat) r).
    { intros b r Hb Hr. unfold u. rewrite blocks_ok by exact Hr. destruct (Nat.ltb_spec b q); [|lia]. apply do_apply_ok. exact Hr. }
    intros i Hi. destruct (Nat.ltb_spec i (4 * q)); [|lia].
    pose proof (Nat.div_mod i 4 ltac:(lia)) as Di. pose proof (Nat.mod_upper_bound i 4 ltac:(lia)) as Mi.
    set (b := Nat.div i 4) in *. set (r := Nat.modulo i 4) in *. clearbody b r. subst i.
    rewrite (fold_sum K (fun j => u (r + j)%nat)), map_map. rewrite U by lia.
    rewrite (fsum_map_ext K _ (fun b => mv 4 (m4 d) (fun j => v (4 * b + j)%nat) r)).
    2:{ intros c Hc. apply in_seq in Hc. rewrite Nat.add_comm. apply U; lia. }
    unfold mv at 3. rewrite sum4. destruct (divmod4 b r Mi) as [Eb Er].
    transitivity (fsum (map (fun c => (if Nat.eqb b c then mv 4 (m4 d) (fun j => v (4 * c + j)%nat) r else 0)
                                      + mv 4 (m4 d) (fun j => v (4 * c + j)%nat) r) (seq 0 q))).
    { rewrite fsum_map_add. rewrite (sum_one K (fun c => if Nat.eqb b c then _ else 0) q b) by (first [lia|intros j _ Hn; destruct (Nat.eqb_spec b j); [congruence|reflexivity]]).
      rewrite Nat.eqb_refl. ring. }
    apply fsum_map_ext. intros c _. unfold mv. cbn [seq map fsum]. unfold block_circulant. rewrite Eb, Er.
    destruct (divmod4 c 0 ltac:(lia)) as [-> ->], (divmod4 c 1 ltac:(lia)) as [-> ->], (divmod4 c 2 ltac:(lia)) as [-> ->], (divmod4 c 3 ltac:(lia)) as [-> ->]. cbn [fnat].
    destruct (Nat.eqb b c); ring.
  Qed.
  (** Construct gives the same matrix. *)
  Lemma construct_ok d w : supported_width w ->
    exists m, external_construct d w = Some m /\ forall i j, (i < w)%nat -> (j < w)%nat -> m i j = external_matrix (m4 d) w i j :> K.
  Proof.
    intros [Hw Hc]. unfold external_construct, external_matrix.
    assert (E1 : (Nat.leb w 1 || Nat.ltb 24 w)%bool = false).
    { destruct (Nat.leb_spec w 1), (Nat.ltb_spec 24 w); try lia; reflexivity. }
    rewrite E1. destruct (Nat.eqb_spec w 2) as [->|N2].
    { eexists. split; [reflexivity|]. intros i j Hi Hj. cbn [Nat.leb].
      destruct i as [|[|i]]; [| |lia]; destruct j as [|[|j]]; try lia; cbn; ring. }
    destruct (Nat.eqb_spec w 3) as [->|N3].
    { eexists. split; [reflexivity|]. intros i j Hi Hj. cbn [Nat.leb].
      destruct i as [|[|[|i]]]; [| | |lia]; destruct j as [|[|[|j]]]; try lia; cbn; ring. }
    destruct (Nat.leb_spec w 3); [lia|].
    destruct (Nat.eqb_spec w 4) as [->|N4].
    { eexists. split; [reflexivity|]. intros i j _ _. apply do_construct_ok. }
    destruct Hc as [Hc|[q ->]]; [lia|].
    rewrite (Nat.mul_comm 4 q), Nat.mod_mul by lia. rewrite (Nat.mul_comm q 4). cbn [Nat.eqb].
    eexists. split; [reflexivity|]. intros i j _ _. unfold block_circulant. rewrite do_construct_ok.
    destruct Nat.eqb; [reflexivity|ring].
  Qed.
  Lemma external_unsupported d w (v : pvec K) : ~ supported_width w -> external_apply d w v = None /\ external_construct (K := K) d w = None.
  Proof.
    intros H. unfold external_apply, external_construct, supported_width in *.
    destruct (Nat.leb_spec w 1); [split; reflexivity|]. destruct (Nat.ltb_spec 24 w); [split; reflexivity|]. cbn [orb].
    destruct (Nat.eqb_spec w 2); [exfalso; apply H; lia|]. destruct (Nat.eqb_spec w 3); [exfalso; apply H; lia|].
    destruct (Nat.eqb_spec w 4); [exfalso; apply H; split; [lia|right; exists 1%nat; lia]|].
    destruct (Nat.eqb_spec (Nat.modulo w 4) 0); [|split; reflexivity].
    exfalso. apply H. split; [lia|right]. exists (Nat.div w 4). pose proof (Nat.div_mod w 4 ltac:(lia)). lia.
  Qed.

  Lemma internal_ok w d (v : pvec K) : veq w (internal_apply w d v) (mv w (ones_with_diagonal (fun i => d i + 1)) v).
  Proof.
    intros i Hi. unfold internal_apply. rewrite (fold_sum K v), two_ones by exact Hi. ring.
  Qed.

  (** ** nonsingular external matrices *)
  Lemma m4_nonsingular d : (match d with Horizen => fnat 2 | Plonky3 => fnat 35 end : K) <> 0 -> nonsingular 4 (m4 d).
  Proof.
    intros Hd v Hv i Hi.
    pose proof (Hv 0%nat ltac:(lia)) as H0. pose proof (Hv 1%nat ltac:(lia)) as H1.
    pose proof (Hv 2%nat ltac:(lia)) as H2. pose proof (Hv 3%nat ltac:(lia)) as H3.
    unfold mv in H0, H1, H2, H3. cbn [seq map fsum] in H0, H1, H2, H3.
    set (a := v 0%nat) in *. set (b := v 1%nat) in *. set (c := v 2%nat) in *. set (e := v 3%nat) in *.
    assert (X : a = 0 /\ b = 0 /\ c = 0 /\ e = 0).
    { destruct d; cbn [m4] in H0, H1, H2, H3; unfold m4_horizen, m4_plonky3, of_rows in H0, H1, H2, H3; cbn [nth] in H0, H1, H2, H3.
      - assert (H8 : (fnat 2 * (fnat 2 * fnat 2) : K) <> 0) by (repeat apply fmul_neq0; exact Hd).
        set (p := fnat 5 * a + (fnat 7 * b + (fnat 1 * c + (fnat 3 * e + 0))) : K) in *.
        set (q := fnat 4 * a + (fnat 6 * b + (fnat 1 * c + (fnat 1 * e + 0))) : K) in *.
        set (r := fnat 1 * a + (fnat 3 * b + (fnat 5 * c + (fnat 7 * e + 0))) : K) in *.
        set (s := fnat 1 * a + (fnat 1 * b + (fnat 4 * c + (fnat 6 * e + 0))) : K) in *.
        repeat split; apply (fmul_cancel_l K (fnat 2 * (fnat 2 * fnat 2))); try exact H8.
        + transitivity (- (1) * p + fnat 3 * q - fnat 6 * r + fnat 7 * s); [unfold p, q, r, s; cbn [fnat]; ring|rewrite H0, H1, H2, H3; ring].
        + transitivity (p - q + fnat 4 * r - fnat 5 * s); [unfold p, q, r, s; cbn [fnat]; ring|rewrite H0, H1, H2, H3; ring].
        + transitivity (- fnat 6 * p + fnat 7 * q - r + fnat 3 * s); [unfold p, q, r, s; cbn [fnat]; ring|rewrite H0, H1, H2, H3; ring].
        + transitivity (fnat 4 * p - fnat 5 * q + r - s); [unfold p, q, r, s; cbn [fnat]; ring|rewrite H0, H1, H2, H3; ring].
      - set (p := fnat 2 * a + (fnat 3 * b + (fnat 1 * c + (fnat 1 * e + 0))) : K) in *.
        set (q := fnat 1 * a + (fnat 2 * b + (fnat 3 * c + (fnat 1 * e + 0))) : K) in *.
        set (r := fnat 1 * a + (fnat 1 * b + (fnat 2 * c + (fnat 3 * e + 0))) : K) in *.
        set (s := fnat 3 * a + (fnat 1 * b + (fnat 1 * c + (fnat 2 * e + 0))) : K) in *.
        repeat split; apply (fmul_cancel_l K (fnat 35)); try exact Hd.
        + transitivity (- fnat 4 * p + fnat 3 * q - fnat 11 * r + fnat 17 * s); [unfold p, q, r, s; cbn [fnat]; ring|rewrite H0, H1, H2, H3; ring].
        + transitivity (fnat 17 * p - fnat 4 * q + fnat 3 * r - fnat 11 * s); [unfold p, q, r, s; cbn [fnat]; ring|rewrite H0, H1, H2, H3; ring].
        + transitivity (- fnat 11 * p + fnat 17 * q - fnat 4 * r + fnat 3 * s); [unfold p, q, r, s; cbn [fnat]; ring|rewrite H0, H1, H2, H3; ring].
        + transitivity (fnat 3 * p - fnat 11 * q + fnat 17 * r - fnat 4 * s); [unfold p, q, r, s; cbn [fnat]; ring|rewrite H0, H1, H2, H3; ring]. }
    destruct X as (? & ? & ? & ?). destruct i as [|[|[|[|i]]]]; [assumption|assumption|assumption|assumption|lia].
  Qed.
  Lemma sum_const (x : K) {A} (l : list A) : fsum (map (fun _ => x) l) = fnat (length l) * x.
  Proof. induction l as [|a l IH]; cbn [map fsum length fnat]; [ring|]. rewrite IH. ring. Qed.
  Lemma external_nonsingular d w : supported_width w ->
    (match d with Horizen => fnat 2 | Plonky3 => fnat 35 end : K) <> 0 ->
    (fnat (if Nat.leb w 3 then w + 1 else Nat.div w 4 + 1)%nat : K) <> 0 -> nonsingular w (external_matrix (m4 d) w).
  Proof.
    intros [Hw Hc] Hd Hk. unfold external_matrix. destruct (Nat.leb_spec w 3).
    { intros v Hv i Hi. set (s := fsum (map v (seq 0 w))).
      assert (V : forall i, (i < w)%nat -> v i + s = 0).
      { intros j Hj. rewrite <- (Hv j Hj), two_ones by exact Hj. fold s. cbn [fnat]. ring. }
      assert (S0 : s = 0).
      { apply (fmul_cancel_l K _ _ _ Hk). transitivity (fsum (map (fun j => v j + s) (seq 0 w))).
        - rewrite fsum_map_add, sum_const, seq_length. fold s. rewrite Nat.add_1_r. cbn [fnat]. ring.
        - rewrite fsum_map_zero; [ring|]. intros j Hj. apply in_seq in Hj. apply V. lia. }
      rewrite <- (V i Hi), S0. ring. }
    destruct (Nat.eqb_spec w 4) as [->|N4]; [apply m4_nonsingular; exact Hd|].
    destruct Hc as [Hc|[q ->]]; [lia|]. rewrite (Nat.mul_comm 4 q), Nat.div_mul in Hk by lia.
    intros v Hv i Hi.
    set (u := fun b r => mv 4 (m4 d) (fun j => v (4 * b + j)%nat) r). set (s := fun r => fsum (map (fun b => u b r) (seq 0 q))).
    assert (V : forall b r, (b < q)%nat -> (r < 4)%nat -> u b r + s r = 0).
    { intros b r Hb Hr. rewrite <- (Hv (4 * b + r)%nat) by lia. unfold mv. rewrite sum4. destruct (divmod4 b r Hr) as [Eb Er].
      transitivity (fsum (map (fun c => (if Nat.eqb b c then u c r else 0) + u c r) (seq 0 q))).
      { rewrite fsum_map_add. rewrite (sum_one K (fun c => if Nat.eqb b c then _ else 0) q b) by (first [lia|intros j _ Hn; destruct (Nat.eqb_spec b j); [congruence|reflexivity]]).
        rewrite Nat.eqb_refl. reflexivity. }
      apply fsum_map_ext. intros c _. unfold u, mv. cbn [seq map fsum]. unfold block_circulant. rewrite Eb, Er.
      destruct (divmod4 c 0 ltac:(lia)) as [-> ->], (divmod4 c 1 ltac:(lia)) as [-> ->], (divmod4 c 2 ltac:(lia)) as [-> ->], (divmod4 c 3 ltac:(lia)) as [-> ->]. cbn [fnat].
      destruct (Nat.eqb b c); ring. }
    assert (S0 : forall r, (r < 4)%nat -> s r = 0).
    { intros r Hr. apply (fmul_cancel_l K _ _ _ Hk). transitivity (fsum (map (fun b => u b r + s r) (seq 0 q))).
      - rewrite fsum_map_add, sum_const, seq_length. fold (s r). rewrite Nat.add_1_r. cbn [fnat]. ring.
      - rewrite fsum_map_zero; [ring|]. intros b Hb. apply in_seq in Hb. apply V; lia. }
    pose proof (Nat.div_mod i 4 ltac:(lia)) as Di. pose proof (Nat.mod_upper_bound i 4 ltac:(lia)) as Mi.
    rewrite Di. apply (m4_nonsingular d Hd (fun j => v (4 * (i / 4) + j)%nat)); [|exact Mi].
    intros r Hr. change (u (i / 4)%nat r = 0). rewrite <- (V (i / 4)%nat r) by lia. rewrite (S0 r Hr). ring.
  Qed.

  (** ** the permutation *)
  Variables (d : vendor) (w rf rp : nat) (alpha : Z) (int ark : pmat K) (internal : pvec K -> pvec K).
  Hypothesis Hw : supported_width w.
  Hypothesis Ha : (0 <= alpha < 2 ^ 32)%Z.
  Hypothesis Hint : forall v, veq w (internal v) (mv w int v).
  Notation a := (Z.to_nat alpha).
  Notation ext := (external_matrix (m4 d) w).
  Notation T := (poseidon2_round w rf rp a ext int ark).

  Lemma full2_ok u x r : veq w u x -> (r < Nat.div rf 2 \/ Nat.div rf 2 + rp <= r)%nat ->
    exists y, full2 d w alpha ark u r = Some y /\ veq w y (T x r).
  Proof.
    intros Hu Hr. unfold full2. destruct (external_ok d w (sbox_full alpha (ark_full ark r u)) Hw) as (y & -> & Hy).
    exists y. split; [reflexivity|]. intros i Hi. rewrite Hy by exact Hi. unfold poseidon2_round.
    assert (E : (Nat.ltb r (Nat.div rf 2) || Nat.leb (Nat.div rf 2 + rp) r)%bool = true).
    { destruct (Nat.ltb_spec r (Nat.div rf 2)), (Nat.leb_spec (Nat.div rf 2 + rp) r); try lia; reflexivity. }
    rewrite E. cbn [orb]. apply mv_ext; [intros; reflexivity|]. intros j Hj. unfold sbox_full, ark_full.
    rewrite sbox_pow by exact Ha. rewrite Hu by exact Hj. reflexivity.
  Qed.
  Lemma part2_ok u x r : veq w u x -> (Nat.div rf 2 <= r < Nat.div rf 2 + rp)%nat ->
    exists y, part2 internal alpha ark u r = Some y /\ veq w y (T x r).
  Proof.
    intros Hu Hr. eexists. split; [reflexivity|]. intros i Hi. rewrite Hint by exact Hi. unfold poseidon2_round.
    assert (E : (Nat.ltb r (Nat.div rf 2) || Nat.leb (Nat.div rf 2 + rp) r)%bool = false).
    { destruct (Nat.ltb_spec r (Nat.div rf 2)), (Nat.leb_spec (Nat.div rf 2 + rp) r); try lia; reflexivity. }
    rewrite E. cbn [orb]. apply mv_ext; [intros; reflexivity|]. intros j Hj. unfold sbox_part, ark_part.
    destruct (Nat.eqb_spec j 0) as [->|Ne]; [|apply Hu; exact Hj].
    rewrite sbox_pow by exact Ha. rewrite Hu by exact Hj. reflexivity.
  Qed.
  Lemma rounds_ok (f : pvec K -> nat -> option (pvec K)) l : forall u x, veq w u x ->
    (forall u x r, In r l -> veq w u x -> exists y, f u r = Some y /\ veq w y (T x r)) ->
    exists y, ofold f l u = Some y /\ veq w y (fold_left T l x).
  Proof.
    induction l as [|r l IH]; intros u x Hu H.
    - exists u. split; [reflexivity|exact Hu].
    - destruct (H u x r (or_introl eq_refl) Hu) as (y & Ey & Hy). cbn [ofold fold_left]. rewrite Ey.
      apply IH; [exact Hy|]. intros u' x' r' Hr'. apply H. right. exact Hr'.
  Qed.
  Lemma permute2_ok v : exists y, permute2 d internal w rf rp alpha ark v = Some y /\ veq w y (poseidon2 w rf rp a ext int ark v).
  Proof.
    unfold permute2. cbv zeta. destruct (external_ok d w v Hw) as (v0 & -> & H0). set (h := Nat.div rf 2).
    assert (Hh : (h <= rf)%nat) by (apply Nat.div_le_upper_bound; lia).
    destruct (rounds_ok (full2 d w alpha ark) (seq 0 h) v0 _ H0) as (v1 & -> & H1).
    { intros u x r Hr Hu. apply in_seq in Hr. apply full2_ok; [exact Hu|left; fold h; lia]. }
    destruct (rounds_ok (part2 internal alpha ark) (seq h rp) v1 _ H1) as (v2 & -> & H2).
    { intros u x r Hr Hu. apply in_seq in Hr. apply part2_ok; [exact Hu|fold h; lia]. }
    destruct (rounds_ok (full2 d w alpha ark) (seq (h + rp) (rp + rf - (h + rp))) v2 _ H2) as (v3 & -> & H3).
    { intros u x r Hr Hu. apply in_seq in Hr. apply full2_ok; [exact Hu|right; fold h; lia]. }
    exists v3. split; [reflexivity|]. intros i Hi. rewrite H3 by exact Hi. unfold poseidon2.
    replace (rf + rp)%nat with (h + (rp + (rp + rf - (h + rp))))%nat by lia. rewrite !seq_app, !fold_left_app. reflexivity.
  Qed.
End P2.
