(** Vanishing and filter polynomials as objects. *)
From Coq Require Import ZArith List Bool Lia Arith Permutation Sorted Ring Field Field_theory.
From Verif Require Import Field BigIntModel BitsModel BitsProof ParallelizeModel ParallelizeSpec ParallelizeProof ParallelizeExtra
  SemigroupModel SemigroupSpec SemigroupProof SemigroupExtra PolyModel PolySpec PolyProof PolyProof3 PolyProof4 PolyProof5 PolyProof6
  FFTModel FFTSpec FFTProof FFTProof2 FFTProof3 FFTProof4 FFTProof5 DomainModel DomainSpec DomainProof.
Import ListNotations.
Open Scope nat_scope.

Section DF.
  Variable K : fld.
  Add Field Kf : (fld_theory K).
  Open Scope fld_scope.
  Implicit Types (w h g x y tau : K) (d : domain K).

  Lemma two_terms_ok (a b : K) (n : nat) : (0 < n)%nat -> (Z.of_nat n < 2 ^ 64)%Z -> a <> 0 -> b <> 0 -> scanonical [(0%Z, a); (Z.of_nat n, b)].
  Proof.
    intros Hn Hb Ha Hb0. split.
    - cbn [map fst]. constructor; [constructor; [constructor|constructor]|]. constructor; [lia|constructor].
    - constructor; [cbn; split; [lia|auto]|]. constructor; [cbn [fst snd]; split; [lia|auto]|constructor].
  Qed.
  Lemma one_term_ok (a : K) : a <> 0 -> scanonical [(0%Z, a)].
  Proof. intros Ha. split; [cbn [map fst]; constructor; constructor|]. constructor; [cbn; split; [lia|auto]|constructor]. Qed.

  Lemma get_vanishing_spec md d k g h : (k < 62)%nat -> dom_ok K k g h d -> (Z.of_nat (2 ^ k) <= md)%Z ->
    get_vanishing md d = Some [(0%Z, - h ^ (2 ^ k)); (Z.of_nat (2 ^ k), 1)] /\ scanonical [(0%Z, - h ^ (2 ^ k)); (Z.of_nat (2 ^ k), 1 : K)].
  Proof.
    intros Hk HD Hmd. unfold get_vanishing. rewrite (do_size _ _ _ _ _ HD), (do_opow _ _ _ _ _ HD). split.
    - apply sp_make_id. exact Hmd.
    - pose proof (pow2_small k Hk). pose proof (pow2_1 k). apply two_terms_ok; [lia|lia| |apply f1_neq_0].
      intros E. apply (fpow_neq0 K h (2 ^ k) (do_off_nz _ _ _ _ _ HD)). apply (proj1 (fopp_eq0 K _)). exact E.
  Qed.
  Lemma seval_vanishing (n : nat) (c : K) x : seval [(0%Z, - c); (Z.of_nat n, 1)] x = x ^ n - c.
  Proof. unfold seval. cbn [map fst snd fsum]. rewrite Nat2Z.id. change (Z.to_nat 0) with 0%nat. cbn [fpow]. ring. Qed.

  (** Coefficients of c (X^n - a). *)
  Definition zc (n : nat) (a c : K) (i : nat) : K := c * ((if Nat.eqb i n then 1 else 0) - (if Nat.eqb i 0 then a else 0)).
  Lemma conv_const (f : nat -> K) (c : K) i : conv f (scoeff [(0%Z, c)]) i = f i * c.
  Proof.
    unfold conv. rewrite (fsum_single K _ (S i) i) by (try lia; intros j Hj Hne; unfold scoeff; cbn [map fst snd fsum];
      replace (0 =? Z.of_nat (i - j))%Z with false by (symmetry; apply Z.eqb_neq; lia); ring).
    rewrite Nat.sub_diag. unfold scoeff. cbn. ring.
  Qed.
  Lemma scoeff_vanishing (n : nat) (a : K) i : (0 < n)%nat -> scoeff [(0%Z, - a); (Z.of_nat n, 1)] i = zc n a 1 i.
  Proof.
    intros Hn. unfold scoeff, zc. cbn [map fst snd fsum].
    destruct (Z.eqb_spec 0 (Z.of_nat i)), (Z.eqb_spec (Z.of_nat n) (Z.of_nat i)), (Nat.eqb_spec i 0), (Nat.eqb_spec i n); try lia; ring.
  Qed.
  (** conv q (c (X^n - a)) *)
  Lemma conv_zc (q : nat -> K) n a c i : (0 < n)%nat ->
    conv q (zc n a c) i = c * ((if Nat.leb n i then q (i - n)%nat else 0) - a * q i).
  Proof.
    intros Hn. unfold conv.
    rewrite (fsum_map_ext K _ (fun j => (if Nat.eqb j (i - n) then (if Nat.leb n i then c * q (i - n)%nat else 0) else 0) + (if Nat.eqb j i then - (c * a * q i) else 0))).
    - rewrite fsum_map_add. rewrite (fsum_single K (fun j => if Nat.eqb j i then - (c * a * q i) else 0) (S i) i).
      + rewrite (fsum_single K (fun j => if Nat.eqb j (i - n) then (if Nat.leb n i then c * q (i - n)%nat else 0) else 0) (S i) (i - n)).
        * rewrite !Nat.eqb_refl. destruct (Nat.leb n i); ring.
        * lia.
        * intros j Hj Hne. replace (Nat.eqb j (i - n)) with false by (symmetry; apply Nat.eqb_neq; auto). reflexivity.
      + lia.
      + intros j Hj Hne. replace (Nat.eqb j i) with false by (symmetry; apply Nat.eqb_neq; auto). reflexivity.
    - intros j Hj. apply in_seq in Hj. unfold zc.
      destruct (Nat.eqb_spec j (i - n)), (Nat.leb_spec n i), (Nat.eqb_spec j i), (Nat.eqb_spec (i - j) n), (Nat.eqb_spec (i - j) 0); subst; try lia; try ring.
      replace (i - n)%nat with i by lia. ring.
  Qed.

  Lemma eval_zc (l : list K) u b e x : (0 < u)%nat -> (forall i, coeff l i = zc u b e i) -> eval l x = e * (x ^ u - b).
  Proof.
    intros Hu H. rewrite (eval_ext K l (map (zc u b e) (seq 0 (u + 1)))).
    2:{ intros i. rewrite H, coeff_map_seq. destruct (Nat.ltb_spec i (u + 1)); [reflexivity|]. unfold zc.
        replace (Nat.eqb i u) with false by (symmetry; apply Nat.eqb_neq; lia). replace (Nat.eqb i 0) with false by (symmetry; apply Nat.eqb_neq; lia). ring. }
    rewrite (eval_coeffs K _ x (u + 1)) by (rewrite map_length, seq_length; lia).
    rewrite (fsum_map_ext K _ (fun i => (if Nat.eqb i u then e * x ^ u else 0) + (if Nat.eqb i 0 then - (e * b) else 0))).
    - rewrite fsum_map_add. rewrite (fsum_single K (fun i => if Nat.eqb i u then e * x ^ u else 0) (u + 1) u).
      + rewrite (fsum_single K (fun i => if Nat.eqb i 0 then - (e * b) else 0) (u + 1) 0).
        * rewrite !Nat.eqb_refl. ring.
        * lia.
        * intros j Hj Hne. replace (Nat.eqb j 0) with false by (symmetry; apply Nat.eqb_neq; auto). reflexivity.
      + lia.
      + intros j Hj Hne. replace (Nat.eqb j u) with false by (symmetry; apply Nat.eqb_neq; auto). reflexivity.
    - intros i Hi. apply in_seq in Hi. rewrite coeff_map_seq. replace (Nat.ltb i (u + 1)) with true by (symmetry; apply Nat.ltb_lt; lia).
      unfold zc. destruct (Nat.eqb_spec i u), (Nat.eqb_spec i 0); subst; try lia; cbn [fpow]; ring.
  Qed.

  (** ** The exact quotient *)
  Section Quot.
    Variables (n r : nat) (a c : K).
    Hypothesis Hn : (0 < n)%nat.
    Definition quo (i : nat) : K := if Nat.eqb (Nat.modulo i n) 0 && Nat.ltb (Nat.div i n) r then c * a ^ (r - 1 - Nat.div i n) else 0.
    Lemma quo_over i : (r * n <= i)%nat -> quo i = 0.
    Proof.
      intros Hi. unfold quo. replace (Nat.ltb (Nat.div i n) r) with false; [rewrite andb_false_r; reflexivity|].
      symmetry. apply Nat.ltb_ge. apply Nat.div_le_lower_bound; lia.
    Qed.
    Lemma quo_step i : (0 < r)%nat -> (if Nat.leb n i then quo (i - n) else 0) - a * quo i = zc (r * n) (a ^ r) c i.
    Proof.
      intros Hr. unfold zc. destruct (Nat.leb_spec n i) as [Hi|Hi].
      - assert (Ed : Nat.div i n = S (Nat.div (i - n) n)).
        { replace i with (i - n + 1 * n)%nat at 1 by lia. rewrite Nat.div_add by lia. lia. }
        assert (Em : Nat.modulo i n = Nat.modulo (i - n) n).
        { replace i with (i - n + 1 * n)%nat at 1 by lia. apply Nat.mod_add. lia. }
        unfold quo. rewrite Ed, Em. set (m := Nat.div (i - n) n) in *.
        pose proof (Nat.div_mod (i - n) n ltac:(lia)) as DM. fold m in DM.
        replace (Nat.eqb i 0) with false by (symmetry; apply Nat.eqb_neq; lia).
        destruct (Nat.eqb_spec (Nat.modulo (i - n) n) 0) as [E0|E0]; cbn [andb].
        + rewrite E0 in DM. destruct (Nat.eqb_spec i (r * n)) as [Er|Er].
          * assert (m = r - 1)%nat by nia. replace (Nat.ltb m r) with true by (symmetry; apply Nat.ltb_lt; lia).
            replace (Nat.ltb (S m) r) with false by (symmetry; apply Nat.ltb_ge; lia).
            replace (r - 1 - m)%nat with 0%nat by lia. cbn [fpow]. ring.
          * destruct (Nat.ltb_spec (S m) r) as [H1|H1].
            -- replace (Nat.ltb m r) with true by (symmetry; apply Nat.ltb_lt; lia).
               replace (r - 1 - m)%nat with (S (r - 1 - S m)) by lia. rewrite fpow_S. ring.
            -- replace (Nat.ltb m r) with false; [ring|]. symmetry. apply Nat.ltb_ge. nia.
        + replace (Nat.eqb i (r * n)) with false; [ring|]. symmetry. apply Nat.eqb_neq. intros ->. apply E0.
          replace (r * n - n)%nat with ((r - 1) * n)%nat by (rewrite Nat.mul_sub_distr_r; lia). apply Nat.mod_mul. lia.
      - replace (Nat.eqb i (r * n)) with false by (symmetry; apply Nat.eqb_neq; nia). unfold quo.
        rewrite Nat.mod_small, Nat.div_small by lia. destruct (Nat.eqb_spec i 0) as [->|H0]; cbn [andb]; [|ring].
        replace (Nat.ltb 0 r) with true by (symmetry; apply Nat.ltb_lt; lia). 
        replace (a ^ r) with (a * a ^ (r - 1 - 0)); [ring|]. rewrite <- fpow_S. f_equal. lia.
    Qed.
    (** A finite sequence with the same differences is the quotient. *)
    Lemma quo_unique (q : nat -> K) N : (0 < r)%nat -> (forall i, (N <= i)%nat -> q i = 0) ->
      (forall i, (if Nat.leb n i then q (i - n)%nat else 0) - a * q i = zc (r * n) (a ^ r) c i) -> forall i, q i = quo i.
    Proof.
      intros Hr Hq H. set (e := fun i => q i - quo i).
      assert (He : forall i, e i = a * e (i + n)%nat).
      { intros i. pose proof (H (i + n)%nat) as H1. pose proof (quo_step (i + n) Hr) as H2.
        replace (Nat.leb n (i + n)) with true in * by (symmetry; apply Nat.leb_le; lia). replace (i + n - n)%nat with i in * by lia.
        unfold e. rewrite <- H2 in H1. 
        transitivity ((q i - a * q (i + n)%nat) - (quo i - a * quo (i + n)%nat) + a * (q (i + n)%nat - quo (i + n)%nat)); [ring|]. rewrite H1. ring. }
      assert (Hz : forall t i, (N + r * n <= i + t * n)%nat -> e i = 0).
      { induction t as [|t IH]; intros i Hi.
        - unfold e. rewrite Hq, quo_over by lia. ring.
        - rewrite He, IH by lia. ring. }
      intros i. apply fsub_eq0. apply (Hz (N + r * n)%nat i). nia.
    Qed.
    Lemma fsum_blocks (F : nat -> K) : forall B s, fsum (map F (seq (s * n) (B * n))) = fsum (map (fun b => fsum (map F (seq (b * n) n))) (seq s B)).
    Proof.
      induction B as [|B IH]; intros s; cbn [Nat.mul seq map fsum]; [reflexivity|]. rewrite seq_app, map_app, fsum_app. f_equal.
      rewrite <- IH. do 3 f_equal. lia.
    Qed.
    Lemma quo_eval (l : list K) x : (forall i, coeff l i = quo i) -> eval l x = c * bisum K a (x ^ n) r.
    Proof.
      intros H. set (l' := map quo (seq 0 (r * n))).
      rewrite (eval_ext K l l'). 2:{ intros i. rewrite H. unfold l'. rewrite coeff_map_seq. destruct (Nat.ltb_spec i (r * n)); [reflexivity|apply quo_over; auto]. }
      rewrite (eval_coeffs K l' x (r * n)) by (unfold l'; rewrite map_length, seq_length; lia).
      rewrite (fsum_map_ext K _ (fun i => quo i * x ^ i)).
      2:{ intros i Hi. apply in_seq in Hi. unfold l'. rewrite coeff_map_seq. replace (Nat.ltb i (r * n)) with true by (symmetry; apply Nat.ltb_lt; lia). reflexivity. }
      pose proof (fsum_blocks (fun i => quo i * x ^ i) r 0) as E. rewrite Nat.mul_0_l in E. rewrite E. unfold bisum. rewrite <- fsum_map_mul.
      apply fsum_map_ext. intros b Hb. apply in_seq in Hb. rewrite <- (map_add_seq (b * n) n), map_map.
      rewrite (fsum_single K _ n 0 Hn).
      - unfold quo. rewrite Nat.add_0_r, Nat.mod_mul, Nat.div_mul by lia. rewrite Nat.eqb_refl.
        replace (Nat.ltb b r) with true by (symmetry; apply Nat.ltb_lt; lia). cbn [andb]. rewrite <- fpow_mul, (Nat.mul_comm n b). ring.
      - intros j Hj Hne. unfold quo. replace (Nat.modulo (b * n + j) n) with j.
        + replace (Nat.eqb j 0) with false by (symmetry; apply Nat.eqb_neq; auto). cbn [andb]. ring.
        + rewrite Nat.add_comm, Nat.mod_add by lia. rewrite Nat.mod_small; auto.
    Qed.
  End Quot.

  (** ** GetFilterPolynomial *)
  Lemma contained_iff k g h (k' : nat) (g' h' : K) : primitive_root g (2 ^ k) -> h <> 0 -> primitive_root g' (2 ^ k') -> h' <> 0 ->
    ((forall x, In x (coset_points h' g' (2 ^ k')) -> In x (coset_points h g (2 ^ k))) <-> (k' <= k)%nat /\ h' ^ (2 ^ k) = h ^ (2 ^ k)).
  Proof.
    intros HP Hh HP' Hh'. pose proof (pow2_1 k). pose proof (pow2_1 k'). split.
    - intros H1. split.
      + pose proof (NoDup_incl_length (points_nodup K g' h' (2 ^ k') HP' Hh') H1) as L. rewrite map_length, seq_length, coset_length in L.
        apply (Nat.pow_le_mono_r_iff 2); lia.
      + apply (proj1 (fsub_eq0 K _ _)). apply (vanishing_zero K h g (2 ^ k) h' ltac:(lia) HP Hh). apply H1.
        apply in_map_iff. exists 0%nat. split; [cbn [fpow]; ring|]. apply in_seq. lia.
    - intros [Hk E] x Hx. apply (vanishing_zero K h g (2 ^ k) x ltac:(lia) HP Hh). apply in_map_iff in Hx. destruct Hx as (i & <- & Hi).
      rewrite fpow_mul_base, <- fpow_mul. replace (i * 2 ^ k)%nat with (2 ^ k' * (i * 2 ^ (k - k')))%nat.
      + rewrite fpow_mul, (proj1 HP'), fpow_one, E. ring.
      + replace (2 ^ k)%nat with (2 ^ k' * 2 ^ (k - k'))%nat by (rewrite <- Nat.pow_add_r; f_equal; lia). ring.
  Qed.

  Lemma filter_spec sort md d sub k g h k' (g' h' : K) : sorts K sort -> (md < 2 ^ 64)%Z -> (k < 62)%nat -> (k' < 62)%nat ->
    dom_ok K k g h d -> dom_ok K k' g' h' sub -> primitive_root g (2 ^ k) -> primitive_root g' (2 ^ k') ->
    (Z.of_nat (2 ^ k) <= md)%Z -> (Z.of_nat (2 ^ k') <= md)%Z ->
    (~ ((k' <= k)%nat /\ h' ^ (2 ^ k) = h ^ (2 ^ k)) -> get_filter sort md d sub = None) /\
    ((k' <= k)%nat /\ h' ^ (2 ^ k) = h ^ (2 ^ k) ->
     exists q, get_filter sort md d sub = Some q /\ canonical q /\ 
       forall x, eval q x = fnat (2 ^ k') * h' ^ (2 ^ k') * finv (fnat (2 ^ k)) * bisum K (h' ^ (2 ^ k')) (x ^ (2 ^ k')) (2 ^ (k - k'))).
  Proof.
    intros Hsort Hmd Hk Hk' HD HD' HP HP' M1 M2.
    destruct (get_vanishing_spec md d k g h Hk HD M1) as [V1 C1]. destruct (get_vanishing_spec md sub k' g' h' Hk' HD' M2) as [V2 C2].
    pose proof (do_off_nz _ _ _ _ _ HD) as Hh. pose proof (do_off_nz _ _ _ _ _ HD') as Hh'.
    pose proof (do_elem_nz _ _ _ _ _ HD) as Hm. pose proof (do_elem_nz _ _ _ _ _ HD') as Hm'.
    unfold get_filter. rewrite V1, V2. rewrite (do_elem _ _ _ _ _ HD), (do_elem _ _ _ _ _ HD'), (do_opow _ _ _ _ _ HD'). clear V1 V2.
    set (n := (2 ^ k)%nat) in *. set (n' := (2 ^ k')%nat) in *. set (a := h' ^ n') in *. set (c := fnat n' * a) in *. set (m := fnat (K := K) n) in *.
    assert (Hn0 : (0 < n)%nat) by (unfold n; pose proof (pow2_1 k); lia). assert (Hn0' : (0 < n')%nat) by (unfold n'; pose proof (pow2_1 k'); lia).
    assert (Ha : a <> 0) by (apply fpow_neq0; auto). assert (Hc : c <> 0) by (apply fmul_neq0; auto).
    assert (Md0 : (0 <= md)%Z) by lia.
    rewrite !sp_make_id by (cbn; lia).
    destruct (sp_mul_spec K sort md [(0%Z, - h ^ n); (Z.of_nat n, 1)] [(0%Z, c)] Hsort C1 (one_term_ok c Hc)) as (num & -> & _ & [N1 N2]); [cbn; lia|lia|].
    destruct (sp_mul_spec K sort md [(0%Z, - a); (Z.of_nat n', 1)] [(0%Z, m)] Hsort C2 (one_term_ok m Hm)) as (den & -> & _ & [D1 D2]); [cbn; lia|lia|].
    assert (N3 : forall i, scoeff num i = zc n (h ^ n) c i). { intros i. rewrite N2, conv_const, scoeff_vanishing by auto. unfold zc. ring. }
    assert (D3 : forall i, scoeff den i = zc n' a m i). { intros i. rewrite D2, conv_const, scoeff_vanishing by auto. unfold zc. ring. }
    clear N2 D2.
    assert (NT : forall (u : nat) (b e : K), (0 < u)%nat -> zc u b e u = e). { intros u b e Hu. unfold zc. rewrite Nat.eqb_refl. replace (Nat.eqb u 0) with false by (symmetry; apply Nat.eqb_neq; lia). ring. }
    assert (Nn : num <> []). { intros ->. specialize (N3 n). rewrite scoeff_nil, NT in N3 by auto. auto. }
    assert (Dn : den <> []). { intros ->. specialize (D3 n'). rewrite scoeff_nil, NT in D3 by auto. auto. }
    replace (sp_is_zero num) with false by (destruct num; [congruence|reflexivity]).
    assert (Ndeg : forall (s : list (Z * K)) (u : nat) (b e : K), (0 < u)%nat -> e <> 0 -> scanonical s -> s <> [] -> (forall i, scoeff s i = zc u b e i) -> sp_degree s = Z.of_nat u).
    { intros s u b e Hu He Hs Hsn H. pose proof (degree_nonneg K s Hs) as Hd0. destruct (leading_spec K s Hs Hsn) as [L1 L2].
      destruct (Z.lt_trichotomy (sp_degree s) (Z.of_nat u)) as [Hlt|[?|Hgt]]; [|auto|].
      - exfalso. apply He. rewrite <- (NT u b e Hu), <- H. apply scoeff_over'; auto.
      - exfalso. apply L2. rewrite L1, H. unfold zc. replace (Nat.eqb _ u) with false by (symmetry; apply Nat.eqb_neq; lia).
        replace (Nat.eqb _ 0) with false by (symmetry; apply Nat.eqb_neq; lia). ring. }
    pose proof (Ndeg num n _ c Hn0 Hc N1 Nn N3) as DN. pose proof (Ndeg den n' _ m Hn0' Hm D1 Dn D3) as DD. clear Ndeg.
    destruct (to_dense_spec K md num N1 ltac:(lia)) as (nd & -> & R1 & R2).
    assert (Hndn : nd <> []). { intros ->. specialize (R2 n). rewrite N3, NT in R2 by auto. unfold coeff in R2. destruct n; cbn in R2; congruence. }
    assert (Hndd : (Z.of_nat (degree nd) <= md)%Z).
    { assert (length nd <= n + 1)%nat. 
      { destruct (Nat.le_gt_cases (length nd) (n + 1)); [auto|]. exfalso. 
        assert (Hl : coeff nd (length nd - 1) = 0).
        { rewrite R2, N3. unfold zc. replace (Nat.eqb _ n) with false by (symmetry; apply Nat.eqb_neq; lia).
          replace (Nat.eqb _ 0) with false by (symmetry; apply Nat.eqb_neq; lia). ring. }
        apply (canonical_lead K nd R1 Hndn). exact Hl. }
      unfold degree. destruct nd; cbn [length] in *; lia. }
    destruct (ds_divide_spec K md nd den R1 D1 Hndn Dn Hndd ltac:(lia)) as (q & r & -> & Q1 & Q2 & Q3 & Q4).
    assert (Q5 : forall i, zc n (h ^ n) c i = m * ((if Nat.leb n' i then coeff q (i - n') else 0) - a * coeff q i) + coeff r i).
    { intros i. rewrite <- N3, <- R2, Q4. f_equal. rewrite <- conv_zc by auto. unfold conv. apply fsum_map_ext. intros j _. rewrite D3. reflexivity. }
    rewrite DD in Q3.
    assert (ID : forall x, c * (x ^ n - h ^ n) = eval q x * (m * (x ^ n' - a)) + eval r x).
    { intros x. set (dl := map (zc n' a m) (seq 0 (n' + 1))).
      assert (Hdl : forall i, coeff dl i = zc n' a m i).
      { intros i. unfold dl. rewrite coeff_map_seq. destruct (Nat.ltb_spec i (n' + 1)); [reflexivity|]. unfold zc.
        replace (Nat.eqb i n') with false by (symmetry; apply Nat.eqb_neq; lia). replace (Nat.eqb i 0) with false by (symmetry; apply Nat.eqb_neq; lia). ring. }
      rewrite <- (eval_zc nd n (h ^ n) c x) by (auto; intros; rewrite R2; auto). rewrite <- (eval_zc dl n' a m x) by auto.
      rewrite <- pm_eval. rewrite (eval_linear K (pm K q dl) r nd 1 1 x); [ring|]. intros i. rewrite pm_coeff, R2, N3, Q5.
      rewrite <- conv_zc by auto. replace (conv (coeff q) (coeff dl) i) with (conv (coeff q) (zc n' a m) i); [ring|].
      unfold conv. apply fsum_map_ext. intros j _. rewrite Hdl. reflexivity. }
    split.
    - intros Hnot. destruct r as [|r0 rs]; [|reflexivity]. exfalso. apply Hnot. apply (contained_iff k g h k' g' h' HP Hh HP' Hh').
      intros x Hx. apply (vanishing_zero K h g n x Hn0 HP Hh). apply (vanishing_zero K h' g' n' x Hn0' HP' Hh') in Hx. fold a in Hx.
      specialize (ID x). rewrite Hx, eval_nil in ID.
      assert (E : c * (x ^ n - h ^ n) = 0) by (rewrite ID; ring). destruct (fmul_integral K _ _ E); [contradiction|auto].
    - intros Hcont. pose proof (proj2 (contained_iff k g h k' g' h' HP Hh HP' Hh') Hcont) as Hin. destruct Hcont as [Hle Heq].
      assert (Hr : r = []).
      { apply (canonical_unique K r []); auto; [exact (canonical_nil K)|]. intros i. rewrite (coeff_over K []) by (cbn; lia).
        apply (roots_bound K (coset_points h' g' n') r).
        - apply points_nodup; auto.
        - rewrite coset_length. lia.
        - intros x Hx. pose proof (Hin x Hx) as Hx2. apply (vanishing_zero K h g n x Hn0 HP Hh) in Hx2.
          apply (vanishing_zero K h' g' n' x Hn0' HP' Hh') in Hx. fold a in Hx. specialize (ID x). rewrite Hx, Hx2 in ID.
          transitivity (eval q x * (m * 0) + eval r x); [ring|]. rewrite <- ID. ring. }
      subst r. exists q. split; [reflexivity|]. split; [exact Q1|]. intros x.
      assert (En : n = (2 ^ (k - k') * n')%nat) by (unfold n, n'; rewrite <- Nat.pow_add_r; f_equal; lia).
      assert (Ea : h ^ n = a ^ (2 ^ (k - k'))). { rewrite <- Heq. unfold a. rewrite <- fpow_mul. f_equal. lia. }
      transitivity (c * finv m * bisum K a (x ^ n') (2 ^ (k - k'))); [|unfold c, m; reflexivity].
      apply quo_eval; auto. apply (quo_unique n' (2 ^ (k - k')) a (c * finv m) Hn0' (coeff q) (length q)).
      + pose proof (pow2_1 (k - k')). lia.
      + intros i Hi. apply coeff_over. auto.
      + intros i. rewrite <- En, <- Ea. specialize (Q5 i). rewrite (coeff_over K []) in Q5 by (cbn; lia).
        apply (fmul_cancel_l K m); auto. transitivity (zc n (h ^ n) c i); [rewrite Q5; ring|]. unfold zc. field. exact Hm.
  Qed.

  (** Values of the filter. *)
  Lemma filter_values k g h k' (g' h' : K) x : primitive_root g (2 ^ k) -> h <> 0 -> primitive_root g' (2 ^ k') -> h' <> 0 ->
    (k' <= k)%nat -> h' ^ (2 ^ k) = h ^ (2 ^ k) ->
    forall v : K, v = fnat (2 ^ k') * h' ^ (2 ^ k') * finv (fnat (2 ^ k)) * bisum K (h' ^ (2 ^ k')) (x ^ (2 ^ k')) (2 ^ (k - k')) ->
    (In x (coset_points h' g' (2 ^ k')) -> v = h ^ (2 ^ k)) /\
    (~ In x (coset_points h' g' (2 ^ k')) -> In x (coset_points h g (2 ^ k)) -> v = 0) /\
    v * (fnat (2 ^ k) * (x ^ (2 ^ k') - h' ^ (2 ^ k'))) = fnat (2 ^ k') * h' ^ (2 ^ k') * (x ^ (2 ^ k) - h ^ (2 ^ k)).
  Proof.
    intros HP Hh HP' Hh' Hle Heq v Hv.
    pose proof (fnat_pow2_prim K g k HP) as Hm. pose proof (fnat_pow2_prim K g' k' HP') as Hm'.
    assert (H2 : (2 ^ k = 2 ^ k' * 2 ^ (k - k'))%nat) by (rewrite <- Nat.pow_add_r; f_equal; lia).
    assert (ID : v * (fnat (2 ^ k) * (x ^ (2 ^ k') - h' ^ (2 ^ k'))) = fnat (2 ^ k') * h' ^ (2 ^ k') * (x ^ (2 ^ k) - h ^ (2 ^ k))).
    { rewrite Hv, <- Heq. replace (x ^ (2 ^ k)) with ((x ^ (2 ^ k')) ^ (2 ^ (k - k'))) by (rewrite <- fpow_mul, H2; reflexivity).
      replace (h' ^ (2 ^ k)) with ((h' ^ (2 ^ k')) ^ (2 ^ (k - k'))) by (rewrite <- fpow_mul, H2; reflexivity).
      set (A := h' ^ (2 ^ k')). set (X := x ^ (2 ^ k')). set (m := fnat (2 ^ k)) in *. set (B := bisum K A X (2 ^ (k - k'))).
      transitivity (fnat (2 ^ k') * A * (finv m * m) * ((X - A) * B)); [ring|]. unfold B. rewrite bisum_diff, finv_l by auto. ring. }
    pose proof (pow2_1 k). pose proof (pow2_1 k'). pose proof (pow2_1 (k - k')).
    split; [|split; [|exact ID]].
    - intros Hx. apply (vanishing_zero K h' g' (2 ^ k') x ltac:(lia) HP' Hh') in Hx. apply (proj1 (fsub_eq0 K _ _)) in Hx.
      rewrite Hv, Hx, bisum_diag. rewrite <- Heq. set (a := h' ^ (2 ^ k')).
      replace (h' ^ (2 ^ k)) with (a ^ (2 ^ (k - k'))) by (unfold a; rewrite <- fpow_mul, H2; reflexivity).
      replace (a ^ (2 ^ (k - k'))) with (a * a ^ (2 ^ (k - k') - 1)) by (rewrite <- fpow_S; f_equal; lia).
      assert (Ef : fnat (K := K) (2 ^ k) = fnat (2 ^ k') * fnat (2 ^ (k - k'))) by (rewrite H2; apply fnat_mul).
      assert (fnat (K := K) (2 ^ (k - k')) <> 0). { intros E. apply Hm. rewrite Ef, E. ring. }
      rewrite Ef. field. auto.
    - intros Hx Hx2. apply (vanishing_zero K h g (2 ^ k) x ltac:(lia) HP Hh) in Hx2. rewrite Hx2 in ID.
      assert (E : v * (fnat (2 ^ k) * (x ^ (2 ^ k') - h' ^ (2 ^ k'))) = 0) by (rewrite ID; ring).
      destruct (fmul_integral K _ _ E) as [E1|E1]; [exact E1|]. exfalso. destruct (fmul_integral K _ _ E1) as [E2|E2]; [contradiction|].
      apply Hx. apply (vanishing_zero K h' g' (2 ^ k') x ltac:(lia) HP' Hh'). exact E2.
  Qed.
  (** EvaluateFilterPolynomial. *)
  Lemma evaluate_filter_spec d sub k g h k' (g' h' : K) x : (k < 62)%nat -> (k' < 62)%nat ->
    dom_ok K k g h d -> dom_ok K k' g' h' sub -> primitive_root g (2 ^ k) -> primitive_root g' (2 ^ k') ->
    (In x (coset_points h' g' (2 ^ k')) -> evaluate_filter d sub x = Some 1) /\
    (~ In x (coset_points h' g' (2 ^ k')) -> exists v, evaluate_filter d sub x = Some v /\
       v * (fnat (2 ^ k) * (x ^ (2 ^ k') - h' ^ (2 ^ k'))) = fnat (2 ^ k') * (x ^ (2 ^ k) - h ^ (2 ^ k))).
  Proof.
    intros Hk Hk' HD HD' HP HP'. pose proof (pow2_1 k). pose proof (pow2_1 k').
    pose proof (do_off_nz _ _ _ _ _ HD') as Hh'. pose proof (do_elem_nz _ _ _ _ _ HD) as Hm.
    unfold evaluate_filter. rewrite (vanishing_spec' K sub k' g' h') by auto. rewrite (vanishing_spec' K d k g h) by auto.
    rewrite (do_elem _ _ _ _ _ HD), (do_elem _ _ _ _ _ HD'). cbv zeta. split.
    - intros Hx. apply (vanishing_zero K h' g' (2 ^ k') x ltac:(lia) HP' Hh') in Hx. rewrite Hx, feqb_refl. reflexivity.
    - intros Hx. assert (Hz : x ^ (2 ^ k') - h' ^ (2 ^ k') <> 0).
      { intros E. apply Hx. apply (vanishing_zero K h' g' (2 ^ k') x ltac:(lia) HP' Hh'). exact E. }
      rewrite (proj2 (feqb_neq K _ _) Hz). assert (Hz2 : fnat (2 ^ k) * (x ^ (2 ^ k') - h' ^ (2 ^ k')) <> 0) by (apply fmul_neq0; auto).
      rewrite (proj2 (feqb_neq K _ _) Hz2). eexists. split; [reflexivity|]. field. auto.
  Qed.
End DF.
