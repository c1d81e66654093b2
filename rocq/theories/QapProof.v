(** The instance map and the witness map of a quadratic arithmetic program. *)
From Coq Require Import ZArith Lia List Bool Arith Ring Field Field_theory.
From Verif Require Import Field BigIntModel ParallelizeModel ParallelizeExtra SemigroupModel PolyModel PolySpec PolyProof3 FFTModel FFTSpec FFTProof FFTProof3 FFTProof4 FFTProof5 FFTExtra DomainModel DomainSpec DomainProof DomainProof2 DomainExtra
  R1csModel R1csSpec QapModel QapSpec.
Import ListNotations.

Section QapProof.
  Variable K : fld.
  Add Field Kq1 : (fld_theory K).
  Open Scope fld_scope.
  Implicit Types (z v l : list K) (x y : K).

  (** ** Inner products *)
  Lemma inner_nil v : inner ([] : list K) v = 0. Proof. reflexivity. Qed.
  Lemma inner_cons (a b : K) u v : inner (a :: u) (b :: v) = a * b + inner u v.
  Proof. reflexivity. Qed.
  Lemma inner_zeros : forall z n, inner z (repeat 0 n) = 0.
  Proof.
    induction z as [|a z IH]; intros [|n]; try reflexivity. cbn [repeat]. rewrite inner_cons, IH. ring.
  Qed.
  Lemma set_at_length : forall v i x, length (set_at v i x) = length v.
  Proof. induction v; intros [|i] x; cbn [set_at length]; auto. Qed.
  Lemma set_at_nth : forall v i x j, (i < length v)%nat -> nth j (set_at v i x) 0 = if Nat.eqb j i then x else nth j v 0.
  Proof.
    induction v as [|a v IH]; intros i x j Hi; [cbn in Hi; lia|]. destruct i as [|i], j as [|j]; cbn [set_at nth Nat.eqb]; auto.
    apply IH. cbn in Hi. lia.
  Qed.
  Lemma inner_set : forall v z i x y, length z = length v -> nth_error v i = Some x ->
    inner z (set_at v i (x + y)) = inner z v + y * nth i z 0.
  Proof.
    induction v as [|a v IH]; intros [|b z] i x y Hl Hx; cbn in Hl; try lia; destruct i as [|i]; cbn [nth_error] in Hx; try discriminate.
    - injection Hx as ->. cbn [set_at nth]. rewrite !inner_cons. ring.
    - cbn [set_at nth]. rewrite !inner_cons, (IH z i x y) by (auto; lia). ring.
  Qed.

  (** ** Rows *)
  Lemma add_cells li : forall row z v, length z = length v -> (forall c, In c row -> (snd c < length v)%nat) ->
    exists v', fold_left (add_cell li) row (Some v) = Some v' /\ length v' = length v /\ inner z v' = inner z v + li * row_value z row.
  Proof.
    induction row as [|c row IH]; intros z v Hl Hc.
    - exists v. cbn [fold_left]. split; [reflexivity|]. split; [reflexivity|]. unfold row_value. cbn [map fsum]. ring.
    - cbn [fold_left add_cell]. pose proof (Hc c (or_introl eq_refl)) as Hi.
      destruct (nth_error v (snd c)) as [x|] eqn:E; [|apply nth_error_None in E; lia].
      destruct (IH z (set_at v (snd c) (x + li * fst c))) as (v' & E' & L & I).
      + rewrite set_at_length. exact Hl.
      + intros c' Hc'. rewrite set_at_length. apply Hc. right. exact Hc'.
      + exists v'. split; [exact E'|]. rewrite set_at_length in L. split; [exact L|].
        rewrite I, (inner_set v z (snd c) x (li * fst c)) by auto. unfold row_value. cbn [map fsum]. ring.
  Qed.
  Lemma add_rows_spec l rows z : forall n v, length z = length v -> (n <= length l)%nat -> (n <= length rows)%nat ->
    (forall row c, In row rows -> In c row -> (snd c < length v)%nat) ->
    exists v', add_rows l rows n (Some v) = Some v' /\ length v' = length v /\
      inner z v' = inner z v + fsum (map (fun i => row_value z (nth i rows []) * nth i l 0) (seq 0 n)).
  Proof.
    unfold add_rows. induction n as [|n IH]; intros v Hl Hn Hr Hc.
    - exists v. cbn [seq map fsum fold_left]. split; [reflexivity|]. split; [reflexivity|]. ring.
    - destruct (IH v Hl ltac:(lia) ltac:(lia) Hc) as (v1 & E1 & L1 & I1).
      rewrite seq_S, fold_left_app, E1. cbn [fold_left plus].
      rewrite (nth_error_nth' l 0) by lia. rewrite (nth_error_nth' rows []) by lia.
      destruct (add_cells (nth n l 0) (nth n rows []) z v1) as (v2 & E2 & L2 & I2); [lia| |].
      + intros c Hin. rewrite L1. apply (Hc (nth n rows [])); [apply nth_In; lia|exact Hin].
      + exists v2. split; [exact E2|]. split; [lia|]. rewrite I2, I1, map_app, fsum_app. cbn [map fsum]. ring.
  Qed.
  Lemma place_spec l from z : forall todo i a, length z = length a -> (i + todo <= length a)%nat -> (from + i + todo <= length l)%nat ->
    (forall j, (i <= j)%nat -> nth j a 0 = 0) ->
    exists a', place l from todo i a = Some a' /\ length a' = length a /\
      inner z a' = inner z a + fsum (map (fun j => nth (j - from) z 0 * nth j l 0) (seq (from + i) todo)).
  Proof.
    induction todo as [|todo IH]; intros i a Hl Hi Hf H0.
    - exists a. cbn [place seq map fsum]. split; [reflexivity|]. split; [reflexivity|]. ring.
    - cbn [place]. rewrite (nth_error_nth' l 0) by lia. rewrite (nth_error_nth' a 0) by lia.
      destruct (IH (S i) (set_at a i (nth (from + i) l 0))) as (a' & E & L & I).
      + rewrite set_at_length. exact Hl.
      + rewrite set_at_length. lia.
      + lia.
      + intros j Hj. rewrite set_at_nth by lia. destruct (Nat.eqb_spec j i); [lia|]. apply H0. lia.
      + exists a'. split; [exact E|]. rewrite set_at_length in L. split; [exact L|]. rewrite I.
        replace (set_at a i (nth (from + i) l 0)) with (set_at a i (nth i a 0 + nth (from + i) l 0)) by (f_equal; rewrite H0 by lia; ring).
        rewrite (inner_set a z i (nth i a 0)) by (auto; apply nth_error_nth'; lia).
        replace (from + S i)%nat with (S (from + i)) by lia. cbn [seq map fsum].
        replace (from + i - from)%nat with i by lia. ring.
  Qed.
  Lemma fsum_zero (f : nat -> K) (l : list nat) : (forall i, In i l -> f i = 0) -> fsum (map f l) = 0.
  Proof.
    induction l as [|i l IH]; intros H; cbn [map fsum]; [reflexivity|]. rewrite (H i (or_introl eq_refl)), IH by (intros; apply H; right; auto). ring.
  Qed.
  Lemma seq_split n a s : (a <= n)%nat -> seq s n = seq s a ++ seq (s + a) (n - a).
  Proof. intros H. rewrite <- seq_app. f_equal. lia. Qed.

  (** ** The instance map *)
  Lemma instance_map_spec adicity (root : K) k d threads m x : (adicity < 62)%nat -> primitive_root root (2 ^ adicity) -> (k <= adicity)%nat ->
    radix2_domain adicity root k 1 d -> (0 < threads < 128)%Z -> well_shaped m -> (m_con m + m_inst m <= 2 ^ k)%nat ->
    exists q, instance_map threads d m x = Some q /\ q_t q = x ^ (2 ^ k) - 1 /\
      (q_t q = 0 <-> In x (coset_points 1 (generator adicity root k) (2 ^ k))) /\
      length (q_a q) = (m_inst m + m_wit m)%nat /\ length (q_b q) = (m_inst m + m_wit m)%nat /\ length (q_c q) = (m_inst m + m_wit m)%nat /\
      forall z A B C, length z = (m_inst m + m_wit m)%nat -> qap_polys m z (generator adicity root k) (2 ^ k) A B C ->
        inner z (q_a q) = eval A x /\ inner z (q_b q) = eval B x /\ inner z (q_c q) = eval C x.
  Proof.
    intros Ha HP Hk HR Ht HM Hsz. destruct HM as (La & Lb & Lc & Hi & Hcols).
    set (g := generator adicity root k).
    destruct (lagrange_all K adicity root k 1 d threads x Ha HP Hk HR Ht) as ((l & El & Hl & Hint) & _ & _). fold g in Hl, Hint.
    destruct (rdom_ok K _ _ _ _ _ Ha HP Hk HR) as [HD HG]. fold g in HD, HG.
    assert (Hll : length l = (2 ^ k)%nat) by (rewrite Hl, map_length, seq_length; reflexivity).
    assert (Hsize : d_size d = (2 ^ k)%nat) by (apply (do_size _ _ _ _ _ HD)).
    set (M := (m_inst m + m_wit m)%nat). set (zeros := repeat (0 : K) M).
    assert (HM : (m_inst m - 1 + m_wit m + 1 = M)%nat) by (unfold M; lia).
    assert (Lz : length zeros = M) by apply repeat_length.
    assert (Pl : forall z, length z = M -> exists a1, place l (m_con m) (m_inst m) 0 zeros = Some a1 /\ length a1 = M /\
      inner z a1 = fsum (map (fun j => nth (j - m_con m) z 0 * nth j l 0) (seq (m_con m) (m_inst m)))).
    { intros z Hz. destruct (place_spec l (m_con m) z (m_inst m) 0 zeros) as (a1 & E & L & I).
      - lia.
      - rewrite Lz. unfold M. lia.
      - rewrite Nat.add_0_r. lia.
      - intros j _. unfold zeros. apply nth_repeat.
      - exists a1. split; [exact E|]. split; [lia|]. rewrite I. unfold zeros. rewrite inner_zeros, Nat.add_0_r. ring. }
    assert (Ca : forall row c, In row (m_a m) -> In c row -> (snd c < M)%nat) by (intros row c H1 H2; apply (Hcols row c); auto; apply in_or_app; auto).
    assert (Cb : forall row c, In row (m_b m) -> In c row -> (snd c < M)%nat) by (intros row c H1 H2; apply (Hcols row c); auto; apply in_or_app; right; apply in_or_app; auto).
    assert (Cc : forall row c, In row (m_c m) -> In c row -> (snd c < M)%nat) by (intros row c H1 H2; apply (Hcols row c); auto; apply in_or_app; right; apply in_or_app; auto).
    assert (AR : forall rows v z, length rows = m_con m -> length v = M -> length z = M -> (forall row c, In row rows -> In c row -> (snd c < M)%nat) ->
       exists v', add_rows l rows (m_con m) (Some v) = Some v' /\ length v' = M /\
         inner z v' = inner z v + fsum (map (fun i => row_value z (nth i rows []) * nth i l 0) (seq 0 (m_con m)))).
    { intros rows v z Hr Hv Hz Hc. destruct (add_rows_spec l rows z (m_con m) v) as (v' & E & L & I); try lia.
      - rewrite Hv. exact Hc.
      - exists v'. split; [exact E|]. split; [lia|exact I]. }
    destruct (Pl zeros Lz) as (a1 & Ea1 & La1 & _).
    destruct (AR (m_a m) a1 zeros La La1 Lz Ca) as (a & Ea & Lna & _).
    destruct (AR (m_b m) zeros zeros Lb Lz Lz Cb) as (b & Eb & Lnb & _).
    destruct (AR (m_c m) zeros zeros Lc Lz Lz Cc) as (c & Ec & Lnc & _).
    exists (mk_instance_map a b c (evaluate_vanishing d x)). cbn [q_a q_b q_c q_t].
    split. { unfold instance_map. rewrite Hsize. destruct (Nat.ltb_spec (2 ^ k) (m_con m)) as [?|_]; [lia|]. rewrite El, HM. fold zeros. rewrite Ea1, Ea, Eb, Ec. reflexivity. }
    split. { rewrite (vanishing_spec' K d k g 1) by (auto; lia). rewrite fpow_one. reflexivity. }
    split. { destruct (vanishing_all K adicity root k 1 d (Z.of_nat (2 ^ k)) x Ha HP Hk HR ltac:(lia)) as (_ & H & _). exact H. }
    split; [exact Lna|]. split; [exact Lnb|]. split; [exact Lnc|].
    intros z A B C Hz ((LA & VA) & (LB & VB) & (LC & VC)).
    assert (Hpt : forall i, (i < 2 ^ k)%nat -> nth i (coset_points 1 g (2 ^ k)) 0 = g ^ i).
    { intros i Hi'. unfold coset_points. rewrite (nth_indep _ 0 ((fun i => 1 * g ^ i) 0%nat)) by (rewrite map_length, seq_length; lia).
      rewrite (map_nth (fun i => 1 * g ^ i)), seq_nth by lia. cbn [plus]. ring. }
    assert (Hval : forall f (v : nat -> K), (length f <= 2 ^ k)%nat -> (forall i, (i < 2 ^ k)%nat -> eval f (g ^ i) = v i) ->
       eval f x = fsum (map (fun i => v i * nth i l 0) (seq 0 (2 ^ k)))).
    { intros f v Lf Hv. rewrite <- (Hint f Lf). apply fsum_map_ext. intros i Hin. apply in_seq in Hin. rewrite Hpt, Hv by lia. reflexivity. }
    rewrite (Hval A _ LA VA), (Hval B _ LB VB), (Hval C _ LC VC).
    assert (Low : forall rows w, (forall i, (i < m_con m)%nat -> w i = row_value z (nth i rows [])) -> (forall i, (m_con m <= i)%nat -> w i = 0) ->
        fsum (map (fun i => w i * nth i l 0) (seq 0 (2 ^ k))) = fsum (map (fun i => row_value z (nth i rows []) * nth i l 0) (seq 0 (m_con m)))).
    { intros rows w H1 H2. rewrite (seq_split (2 ^ k) (m_con m) 0) by lia. rewrite map_app, fsum_app.
      rewrite (fsum_zero _ (seq (0 + m_con m) _)) by (intros i Hin; apply in_seq in Hin; rewrite H2 by lia; ring).
      rewrite (fsum_map_ext K (fun i => w i * nth i l 0) (fun i => row_value z (nth i rows []) * nth i l 0)) by (intros i Hin; apply in_seq in Hin; rewrite H1 by lia; reflexivity). ring. }
    split; [|split].
    - destruct (Pl z Hz) as (a1' & Ea1' & _ & I1). assert (a1' = a1) by congruence. subst a1'.
      destruct (AR (m_a m) a1 z La La1 Hz Ca) as (a' & Ea' & _ & I2). assert (a' = a) by congruence. subst a'.
      rewrite I2, I1. rewrite (seq_split (2 ^ k) (m_con m) 0) by lia. rewrite map_app, fsum_app. cbn [plus].
      rewrite (seq_split (2 ^ k - m_con m) (m_inst m) (m_con m)) by lia. rewrite map_app, fsum_app.
      rewrite (fsum_zero _ (seq (m_con m + m_inst m) _)).
      2:{ intros i Hin. apply in_seq in Hin. unfold a_value. destruct (Nat.ltb_spec i (m_con m)); [lia|]. destruct (Nat.ltb_spec i (m_con m + m_inst m)); [lia|]. ring. }
      rewrite (fsum_map_ext K (fun i => a_value m z i * nth i l 0) (fun i => row_value z (nth i (m_a m) []) * nth i l 0) (seq 0 (m_con m))).
      2:{ intros i Hin. apply in_seq in Hin. unfold a_value. destruct (Nat.ltb_spec i (m_con m)); [|lia]. reflexivity. }
      rewrite (fsum_map_ext K (fun i => a_value m z i * nth i l 0) (fun j => nth (j - m_con m) z 0 * nth j l 0) (seq (m_con m) (m_inst m))).
      2:{ intros i Hin. apply in_seq in Hin. unfold a_value. destruct (Nat.ltb_spec i (m_con m)); [lia|]. destruct (Nat.ltb_spec i (m_con m + m_inst m)); [|lia]. reflexivity. }
      match goal with |- ?a + ?b = ?b1 + (?a1 + _) => change b1 with b; change a1 with a end. ring.
    - destruct (AR (m_b m) zeros z Lb Lz Hz Cb) as (b' & Eb' & _ & I2). assert (b' = b) by congruence. subst b'.
      rewrite I2. unfold zeros. rewrite inner_zeros. rewrite (Low (m_b m)); [match goal with |- _ + ?a = ?b => change b with a end; ring| |].
      + intros i Hi'. unfold b_value. destruct (Nat.ltb_spec i (m_con m)); [reflexivity|lia].
      + intros i Hi'. unfold b_value. destruct (Nat.ltb_spec i (m_con m)); [lia|reflexivity].
    - destruct (AR (m_c m) zeros z Lc Lz Hz Cc) as (b' & Eb' & _ & I2). assert (b' = c) by congruence. subst b'.
      rewrite I2. unfold zeros. rewrite inner_zeros. rewrite (Low (m_c m)); [match goal with |- _ + ?a = ?b => change b with a end; ring| |].
      + intros i Hi'. unfold c_value. destruct (Nat.ltb_spec i (m_con m)); [reflexivity|lia].
      + intros i Hi'. unfold c_value. destruct (Nat.ltb_spec i (m_con m)); [lia|reflexivity].
  Qed.
End QapProof.
