(** Vanishing polynomials and Lagrange coefficients of a coset. *)
From Coq Require Import ZArith List Bool Lia Arith Permutation Ring Field Field_theory.
From Verif Require Import Field BigIntModel BitsModel BitsProof ParallelizeModel ParallelizeSpec ParallelizeProof ParallelizeExtra
  SemigroupModel SemigroupSpec SemigroupProof SemigroupExtra PolyModel PolySpec PolyProof PolyProof3 PolyProof4 PolyProof5 PolyProof6
  FFTModel FFTSpec FFTProof FFTProof2 FFTProof3 FFTProof4 FFTProof5 DomainModel DomainSpec.
Import ListNotations.
Open Scope nat_scope.

Section DP.
  Variable K : fld.
  Add Field Kf : (fld_theory K).
  Open Scope fld_scope.
  Implicit Types (w h g x y tau : K) (d : domain K).

  (** A monic polynomial of degree n with n distinct roots is the product of the linear factors. *)
  Lemma monic_roots (xs l : list K) : NoDup xs -> length l = S (length xs) -> coeff l (length xs) = 1 -> (forall x, In x xs -> eval l x = 0) ->
    forall y, eval l y = fprod (map (fun r => y - r) xs).
  Proof.
    intros Hn Hl Ht Hr y. set (n := length xs) in *.
    set (P := map (roots_product xs) (seq 0 (S n))).
    assert (HP : forall k, coeff P k = roots_product xs k).
    { intros k. unfold P. rewrite coeff_map_seq. destruct (Nat.ltb_spec k (S n)); [reflexivity|]. symmetry. apply roots_product_top. fold n. lia. }
    rewrite <- (eval_of_roots K xs P y HP). apply eval_ext. intros i. apply fsub_eq0.
    set (D := map (fun i => coeff l i - coeff P i) (seq 0 n)).
    assert (HD : forall i, coeff D i = coeff l i - coeff P i).
    { intros j. unfold D. rewrite coeff_map_seq. destruct (Nat.ltb_spec j n) as [Hj|Hj]; [reflexivity|].
      destruct (Nat.eq_dec j n) as [->|Hne].
      - rewrite Ht, HP. pose proof (proj1 (roots_product_top K xs)) as E. fold n in E. rewrite E. ring.
      - rewrite !coeff_over; [ring| |lia]. unfold P. rewrite map_length, seq_length. lia. }
    rewrite <- HD. apply (roots_bound K xs D); auto.
    - unfold D. rewrite map_length, seq_length. fold n. lia.
    - intros x Hx. rewrite (eval_linear K l P D 1 (- (1)) x) by (intros; rewrite HD; ring). rewrite Hr by auto.
      rewrite (eval_of_roots K xs P x HP). 
      assert (E : fprod (map (fun r => x - r) xs) = 0).
      { clear - Hx. induction xs as [|z zs IH]; [contradiction|]. cbn [map fprod]. destruct Hx as [->|Hx]; [ring|]. rewrite IH by auto. ring. }
      rewrite E. ring.
  Qed.
  Lemma eval_zeros m x : eval (repeat 0 m : list K) x = 0.
  Proof. induction m; cbn [repeat]; [reflexivity|]. rewrite eval_cons, IHm. ring. Qed.
  Lemma nth_top (a : K) m : nth (S m) (a :: repeat 0 m ++ [1]) 0 = 1.
  Proof. cbn [nth]. rewrite app_nth2 by (rewrite repeat_length; lia). rewrite repeat_length, Nat.sub_diag. reflexivity. Qed.
  Lemma coset_length h g n : length (coset_points h g n) = n.
  Proof. unfold coset_points. rewrite map_length, seq_length. reflexivity. Qed.
  Lemma coset_nth h g n i : (i < n)%nat -> nth i (coset_points h g n) 0 = h * g ^ i.
  Proof.
    intros Hi. apply nth_error_nth. apply (tab_nth (fun i => h * g ^ i)). auto.
  Qed.
  Lemma coset_power h g n i : g ^ n = 1 -> (h * g ^ i) ^ n = h ^ n.
  Proof. intros E. rewrite fpow_mul_base, <- fpow_mul, Nat.mul_comm, fpow_mul, E, fpow_one. ring. Qed.
  Lemma vanishing_product h g n tau : (0 < n)%nat -> primitive_root g n -> h <> 0 ->
    fprod (map (fun x => tau - x) (coset_points h g n)) = tau ^ n - h ^ n.
  Proof.
    intros Hn HP Hh. set (l := (- h ^ n) :: repeat 0 (n - 1) ++ [1] : list K).
    assert (HE : forall y, eval l y = y ^ n - h ^ n).
    { intros y. unfold l. rewrite eval_cons, eval_app, eval_zeros, repeat_length, eval_cons, eval_nil.
      replace n with (S (n - 1)) at 3 by lia. rewrite fpow_S. ring. }
    rewrite <- HE. symmetry. apply monic_roots.
    - apply points_nodup; auto.
    - rewrite coset_length. unfold l. cbn [length]. rewrite app_length, repeat_length. cbn [length]. lia.
    - rewrite coset_length. unfold l, coeff. pose proof (nth_top (- h ^ n) (n - 1)) as E. replace (S (n - 1)) with n in E by lia. exact E.
    - intros x Hx. rewrite HE. apply in_map_iff in Hx. destruct Hx as (i & <- & _). rewrite coset_power by apply HP. ring.
  Qed.
  Lemma vanishing_zero h g n tau : (0 < n)%nat -> primitive_root g n -> h <> 0 -> (tau ^ n - h ^ n = 0 <-> In tau (coset_points h g n)).
  Proof.
    intros Hn HP Hh. rewrite <- (vanishing_product h g n tau) by auto. generalize (coset_points h g n) as l. induction l as [|x l IH]; cbn [map fprod In].
    - split; [intros E; exfalso; apply (f1_neq_0 K); auto|tauto].
    - split.
      + intros E. destruct (fmul_integral K _ _ E) as [E1|E1]; [left; symmetry; apply (proj1 (fsub_eq0 K _ _)); auto|right; apply IH; auto].
      + intros [->|Hin]; [ring|]. rewrite (proj2 IH Hin). ring.
  Qed.

  (** y^n - x^n = (y - x) (y^(n-1) + ... + x^(n-1)) *)
  Definition bisum x y n : K := fsum (map (fun m => x ^ (n - 1 - m) * y ^ m) (seq 0 n)).
  Lemma bisum_S x y n : bisum x y (S n) = x * bisum x y n + y ^ n.
  Proof.
    unfold bisum. rewrite seq_S, map_app, fsum_app. cbn [map fsum plus]. replace (S n - 1 - n)%nat with 0%nat by lia. cbn [fpow].
    rewrite <- fsum_map_mul. rewrite (fsum_map_ext K (fun m => x ^ (S n - 1 - m) * y ^ m) (fun m => x * (x ^ (n - 1 - m) * y ^ m))); [ring|].
    intros m Hm. apply in_seq in Hm. replace (S n - 1 - m)%nat with (S (n - 1 - m)) by lia. rewrite fpow_S. ring.
  Qed.
  Lemma bisum_diff x y n : (y - x) * bisum x y n = y ^ n - x ^ n.
  Proof.
    induction n; [cbn; ring|]. rewrite bisum_S, !fpow_S. transitivity (x * ((y - x) * bisum x y n) + (y - x) * y ^ n); [ring|]. rewrite IHn. ring.
  Qed.
  Lemma bisum_diag x n : bisum x x n = fnat n * x ^ (n - 1).
  Proof.
    unfold bisum. rewrite (fsum_map_ext K _ (fun _ => x ^ (n - 1) * 1)).
    - rewrite fsum_map_mul, fsum_ones. ring.
    - intros m Hm. apply in_seq in Hm. rewrite <- fpow_add. replace (n - 1 - m + m)%nat with (n - 1)%nat by lia. ring.
  Qed.

  Definition others n i := filter (fun j => negb (Nat.eqb i j)) (seq 0 n).
  Lemma others_in n i j : In j (others n i) <-> (j < n)%nat /\ j <> i.
  Proof.
    unfold others. rewrite filter_In, in_seq. destruct (Nat.eqb_spec i j); cbn [negb]; intuition (try discriminate; try lia; try congruence).
  Qed.
  Lemma others_len n i : (i < n)%nat -> length (others n i) = (n - 1)%nat.
  Proof.
    intros Hi. pose proof (Permutation_length (perm_others i n Hi)) as E. rewrite seq_length in E. cbn [length] in E. unfold others. lia.
  Qed.
  (** The product of the differences of one point with the others. *)
  Lemma weights h g n i : (i < n)%nat -> primitive_root g n -> h <> 0 ->
    fprod (map (fun j => h * g ^ i - h * g ^ j) (others n i)) = fnat n * (h * g ^ i) ^ (n - 1).
  Proof.
    intros Hi HP Hh. set (x := h * g ^ i). rewrite <- bisum_diag.
    set (xs := map (fun j => h * g ^ j) (others n i)).
    set (l := map (fun m => x ^ (n - 1 - m)) (seq 0 n)).
    assert (HE : forall y, eval l y = bisum x y n).
    { intros y. rewrite (eval_coeffs K l y n) by (unfold l; rewrite map_length, seq_length; lia). apply fsum_map_ext.
      intros m Hm. apply in_seq in Hm. unfold l. rewrite coeff_map_seq. replace (Nat.ltb m n) with true by (symmetry; apply Nat.ltb_lt; lia). reflexivity. }
    rewrite <- HE. assert (Hlen : length xs = (n - 1)%nat) by (unfold xs; rewrite map_length; apply others_len; auto).
    rewrite (monic_roots xs l).
    - unfold xs. rewrite map_map. reflexivity.
    - unfold xs. pose proof (points_nodup K g h n HP Hh) as ND.
      apply (Permutation_NoDup (Permutation_map (fun j => h * g ^ j) (perm_others i n Hi))) in ND. cbn [map] in ND. inversion ND; auto.
    - rewrite Hlen. unfold l. rewrite map_length, seq_length. lia.
    - rewrite Hlen. unfold l. rewrite coeff_map_seq. replace (Nat.ltb (n - 1) n) with true by (symmetry; apply Nat.ltb_lt; lia).
      rewrite Nat.sub_diag. reflexivity.
    - intros y Hy. rewrite HE. unfold xs in Hy. apply in_map_iff in Hy. destruct Hy as (j & <- & Hj). apply others_in in Hj.
      assert (E : (h * g ^ j - x) * bisum x (h * g ^ j) n = 0).
      { rewrite bisum_diff. unfold x. rewrite !coset_power by apply HP. ring. }
      destruct (fmul_integral K _ _ E) as [E1|E1]; [|exact E1]. exfalso.
      assert (i = j); [|lia]. apply (primitive_inj K g h n); auto; [lia|]. symmetry. apply (proj1 (fsub_eq0 K _ _)). exact E1.
  Qed.
  Lemma fprod_map_mul {A} (f f' : A -> K) l : fprod (map (fun i => f i * f' i) l) = fprod (map f l) * fprod (map f' l).
  Proof. induction l; cbn [map fprod]; [ring|]. rewrite IHl. ring. Qed.
  Lemma fprod_map_inv {A} (f : A -> K) l : (forall i, In i l -> f i <> 0) -> fprod (map (fun i => finv (f i)) l) = finv (fprod (map f l)).
  Proof.
    induction l as [|a l IH]; intros H; cbn [map fprod]; [symmetry; apply finv_1|]. rewrite IH by (intros; apply H; right; auto).
    field. split; [|apply H; left; auto]. apply fprod_neq0. intros x Hx. apply in_map_iff in Hx. destruct Hx as (i & <- & Hi). apply H. right. auto.
  Qed.
  Lemma basis_eq h g n tau i : (i < n)%nat -> primitive_root g n -> h <> 0 -> fnat (K := K) n <> 0 ->
    lagrange_basis (coset_points h g n) tau i =
    fprod (map (fun j => tau - h * g ^ j) (others n i)) * finv (fnat n * (h * g ^ i) ^ (n - 1)).
  Proof.
    intros Hi HP Hh Hn. unfold lagrange_basis. rewrite coset_length. fold (others n i). rewrite <- weights by auto. rewrite <- fprod_map_inv.
    - rewrite <- fprod_map_mul. f_equal. apply map_ext_in. intros j Hj. apply others_in in Hj. rewrite !coset_nth by lia. reflexivity.
    - intros j Hj E. apply others_in in Hj. assert (i = j); [|lia]. apply (primitive_inj K g h n); auto; [lia|]. apply (proj1 (fsub_eq0 K _ _)). exact E.
  Qed.
  Lemma point_neq0 h g n i : (0 < n)%nat -> primitive_root g n -> h <> 0 -> h * g ^ i <> 0.
  Proof. intros Hn HP Hh. apply fmul_neq0; auto. apply fpow_neq0. apply (primitive_neq0 K g n); auto. Qed.
  (** Outside the coset. *)
  Lemma basis_outside h g n tau i : (i < n)%nat -> primitive_root g n -> h <> 0 -> fnat (K := K) n <> 0 -> tau ^ n - h ^ n <> 0 ->
    tau - h * g ^ i <> 0 /\
    lagrange_basis (coset_points h g n) tau i = (tau ^ n - h ^ n) * (h * g ^ i) * finv (fnat n * h ^ n * (tau - h * g ^ i)).
  Proof.
    intros Hi HP Hh Hn Hz. rewrite basis_eq by auto. pose proof (vanishing_product h g n tau ltac:(lia) HP Hh) as V.
    unfold coset_points in V. rewrite map_map in V. rewrite (fprod_perm K _ _ (Permutation_map _ (perm_others i n Hi))) in V. cbn [map fprod] in V.
    fold (others n i) in V. set (P := fprod _) in *.
    assert (Hd : tau - h * g ^ i <> 0). { intros E. apply Hz. rewrite <- V, E. ring. }
    split; [exact Hd|]. rewrite <- V. pose proof (point_neq0 h g n i ltac:(lia) HP Hh) as Hx.
    assert (E : (h * g ^ i) ^ (n - 1) * (h * g ^ i) = h ^ n).
    { rewrite <- (coset_power h g n i) by apply HP. replace n with (S (n - 1)) at 2 by lia. rewrite fpow_S. ring. }
    rewrite <- E. set (x := h * g ^ i) in *. field. repeat (split; auto). apply fpow_neq0; auto.
  Qed.
  (** On the coset. *)
  Lemma basis_inside h g n i m : (i < n)%nat -> (m < n)%nat -> primitive_root g n -> h <> 0 -> fnat (K := K) n <> 0 ->
    lagrange_basis (coset_points h g n) (h * g ^ m) i = if Nat.eqb i m then 1 else 0.
  Proof.
    intros Hi Hm HP Hh Hn. rewrite basis_eq by auto. destruct (Nat.eqb_spec i m) as [->|Hne].
    - rewrite weights by auto. apply finv_r. apply fmul_neq0; auto. apply fpow_neq0. apply (point_neq0 h g n); auto; lia.
    - assert (E : fprod (map (fun j => h * g ^ m - h * g ^ j) (others n i)) = 0).
      { assert (Hin : In m (others n i)) by (apply others_in; lia). revert Hin. generalize (others n i) as l.
        induction l as [|a l IH]; intros Hin; [contradiction|]. cbn [map fprod]. destruct Hin as [->|Hin]; [ring|]. rewrite IH by auto. ring. }
      rewrite E. ring.
  Qed.

  (** ** The code *)
  Lemma vanishing_spec' d k g h tau : (k < 62)%nat -> dom_ok K k g h d -> evaluate_vanishing d tau = tau ^ (2 ^ k) - h ^ (2 ^ k).
  Proof.
    intros Hk HD. unfold evaluate_vanishing. rewrite (do_size _ _ _ _ _ HD), (do_opow _ _ _ _ _ HD).
    pose proof (pow2_small k Hk). rewrite do_pow_fpow, Nat2Z.id by lia. reflexivity.
  Qed.
  Lemma find_tau_spec g h tau n : forall todo i, primitive_root g n -> h <> 0 -> (i + todo <= n)%nat ->
    forall m, (m < n)%nat -> tau = h * g ^ m ->
    find_tau g tau (h * g ^ i) todo = map (fun j => if Nat.eqb j m then 1 else 0) (seq i todo).
  Proof.
    induction todo as [|todo IH]; intros i HP Hh Hi m Hm Et; cbn [find_tau seq map]; [reflexivity|].
    destruct (Nat.eqb_spec i m) as [->|Hne].
    - rewrite Et, feqb_refl. f_equal. assert (W : forall c, (m < c)%nat -> repeat 0 todo = map (fun j => if Nat.eqb j m then 1 else 0 : K) (seq c todo)).
      { clear. induction todo as [|t IH]; intros c Hc; cbn [repeat seq map]; [reflexivity|].
        replace (Nat.eqb c m) with false by (symmetry; apply Nat.eqb_neq; lia). f_equal. apply IH. lia. }
      apply W. lia.
    - replace (feqb (h * g ^ i) tau) with false.
      2:{ symmetry. apply feqb_neq. intros E. apply Hne. apply (primitive_inj K g h n); auto; [lia|]. rewrite E. exact Et. }
      f_equal. replace (h * g ^ i * g) with (h * g ^ S i) by (rewrite fpow_S; ring). apply (IH (S i) HP Hh ltac:(lia) m Hm Et).
  Qed.
  Lemma inverses_spec g ginv tau : forall len l w i, lagrange_inverses g ginv tau (l * ginv ^ i) (- (w * g ^ i)) len =
    map (fun j => l * ginv ^ j * (tau - w * g ^ j)) (seq i len).
  Proof.
    induction len as [|len IH]; intros l w i; cbn [lagrange_inverses seq map]; [reflexivity|]. f_equal; [ring|].
    replace (l * ginv ^ i * ginv) with (l * ginv ^ S i) by (rewrite fpow_S; ring).
    replace (- (w * g ^ i) * g) with (- (w * g ^ S i)) by (rewrite fpow_S; ring). apply IH.
  Qed.
  Lemma inverses_length g ginv tau : forall len l w, length (lagrange_inverses g ginv tau l w len) = len.
  Proof. induction len; intros; cbn [lagrange_inverses length]; auto. Qed.

  Lemma partial_lagrange_spec threads d k g h tau (from size : nat) : (0 < threads < 128)%Z -> (k < 62)%nat -> dom_ok K k g h d ->
    primitive_root g (2 ^ k) -> (from + size <= 2 ^ k)%nat ->
    partial_lagrange threads d tau (Z.of_nat from) size =
    Some (map (fun i => lagrange_basis (coset_points h g (2 ^ k)) tau i) (seq from size)).
  Proof.
    intros Ht Hk HD HP Hr. pose proof (pow2_small k Hk) as Hb. pose proof (pow2_1 k) as Hp1.
    pose proof (do_off_nz _ _ _ _ _ HD) as Hh. pose proof (do_elem_nz _ _ _ _ _ HD) as Hn.
    unfold partial_lagrange. rewrite (do_size _ _ _ _ _ HD). replace (Nat.ltb (2 ^ k) size) with false by (symmetry; apply Nat.ltb_ge; lia).
    destruct (Nat.eqb_spec size 0) as [->|Hs]; [reflexivity|]. cbv zeta.
    rewrite (vanishing_spec' d k g h) by auto. rewrite (element_spec K d k g h) by (auto; lia). rewrite Nat2Z.id.
    rewrite (do_gen _ _ _ _ _ HD), (do_ginv _ _ _ _ _ HD), (do_elem _ _ _ _ _ HD), (do_opow _ _ _ _ _ HD).
    set (n := (2 ^ k)%nat) in *.
    destruct (feqb (tau ^ n - h ^ n) 0) eqn:Ez.
    - apply feqb_eq in Ez. apply (vanishing_zero h g n tau ltac:(lia) HP Hh) in Ez. apply in_map_iff in Ez. destruct Ez as (m & Em & Hm). apply in_seq in Hm.
      rewrite (find_tau_spec g h tau n size from HP Hh Hr m ltac:(lia) (eq_sym Em)). f_equal. apply map_ext_in. intros i Hi. apply in_seq in Hi.
      rewrite <- Em. rewrite basis_inside by (auto; lia). reflexivity.
    - assert (Hz : tau ^ n - h ^ n <> 0) by (apply feqb_neq; exact Ez). set (z := tau ^ n - h ^ n) in *.
      pose proof (primitive_neq0 K g n ltac:(lia) HP) as Hg.
      assert (Hw : h * g ^ from <> 0) by (apply (point_neq0 h g n); auto; lia). set (w := h * g ^ from) in *.
      assert (Hzw : z * w <> 0) by (apply fmul_neq0; auto). rewrite (proj2 (feqb_neq K _ _) Hzw).
      set (l := finv (z * w) * (fnat n * h ^ n)).
      rewrite (parallelize_pointwise (fun j => l * finv g ^ j * (tau - w * g ^ j))).
      + rewrite repeat_length. rewrite batch_inverse_spec; auto.
        * f_equal. rewrite map_map. rewrite <- (map_add_seq from size), map_map.
          apply map_ext_in. intros j Hj. apply in_seq in Hj.
          destruct (basis_outside h g n tau (from + j) ltac:(lia) HP Hh Hn Hz) as [Hd ->].
          assert (Ew : w * g ^ j = h * g ^ (from + j)) by (unfold w; rewrite fpow_add; ring). rewrite Ew.
          assert (Hgi : finv g ^ j = finv (g ^ j)) by (apply fpow_finv; auto). rewrite Hgi.
          pose proof (fpow_neq0 K g j Hg) as Hgj. assert (Hhn : h ^ n <> 0) by (apply fpow_neq0; auto).
          assert (Hl : l * finv (g ^ j) * (tau - h * g ^ (from + j)) <> 0).
          { unfold l. repeat apply fmul_neq0; auto; apply finv_neq0; auto. }
          unfold inv_of. rewrite (proj2 (feqb_neq K _ _) Hl). unfold l. fold z. rewrite <- Ew in *. field. auto 10.
        * rewrite map_length, seq_length. lia.
      + lia.
      + rewrite repeat_length. lia.
      + intros i c s. apply inverses_length.
      + intros i c s Hi Hc Hs' Hl. rewrite repeat_length in Hl. assert (0 <= i * c)%Z by nia.
        rewrite trunc_small by lia. rewrite !do_pow_fpow by lia. rewrite <- (inverses_spec g (finv g) tau (length s) l w).
        f_equal. ring.
  Qed.
  Lemma partial_lagrange_too_many threads d k g h tau from (size : nat) : dom_ok K k g h d -> (2 ^ k < size)%nat -> partial_lagrange threads d tau from size = None.
  Proof. intros HD Hs. unfold partial_lagrange. rewrite (do_size _ _ _ _ _ HD). replace (Nat.ltb _ _) with true by (symmetry; apply Nat.ltb_lt; lia). reflexivity. Qed.

  (** The basis interpolates. *)
  Lemma basis_interpolates h g k tau (f : list K) : primitive_root g (2 ^ k) -> h <> 0 -> (length f <= 2 ^ k)%nat ->
    fsum (map (fun i => eval f (h * g ^ i) * lagrange_basis (coset_points h g (2 ^ k)) tau i) (seq 0 (2 ^ k))) = eval f tau.
  Proof.
    intros HP Hh Hl. set (n := (2 ^ k)%nat) in *. pose proof (pow2_1 k) as Hp1. fold n in Hp1.
    assert (Hn : fnat (K := K) n <> 0) by (apply (fnat_pow2_prim K g); auto).
    set (W := fun i => finv (fnat n * (h * g ^ i) ^ (n - 1))).
    set (pts := fun i => map (fun j => h * g ^ j) (others n i)).
    set (c := fun i m => eval f (h * g ^ i) * (W i * roots_product (pts i) m)).
    set (S := map (fun m => fsum (map (fun i => c i m) (seq 0 n))) (seq 0 n)).
    assert (Hpl : forall i, (i < n)%nat -> length (pts i) = (n - 1)%nat) by (intros; unfold pts; rewrite map_length; apply others_len; auto).
    assert (HS : forall x, eval S x = fsum (map (fun i => eval f (h * g ^ i) * lagrange_basis (coset_points h g n) x i) (seq 0 n))).
    { intros x. rewrite (eval_coeffs K S x n) by (unfold S; rewrite map_length, seq_length; lia).
      rewrite (fsum_map_ext K _ (fun m => fsum (map (fun i => c i m * x ^ m) (seq 0 n)))).
      2:{ intros m Hm. apply in_seq in Hm. unfold S. rewrite coeff_map_seq. replace (Nat.ltb m n) with true by (symmetry; apply Nat.ltb_lt; lia).
          rewrite (fsum_map_ext K (fun i => c i m * x ^ m) (fun i => x ^ m * c i m)) by (intros; ring). rewrite fsum_map_mul. ring. }
      rewrite fsum_swap. apply fsum_map_ext. intros i Hi. apply in_seq in Hi. rewrite basis_eq by (auto; lia). fold (W i).
      set (P := map (roots_product (pts i)) (seq 0 n)).
      assert (HPc : forall m, coeff P m = roots_product (pts i) m).
      { intros m. unfold P. rewrite coeff_map_seq. destruct (Nat.ltb_spec m n); [reflexivity|]. symmetry. apply roots_product_top. rewrite Hpl; lia. }
      pose proof (eval_of_roots K (pts i) P x HPc) as E. unfold pts in E at 1. rewrite map_map in E. rewrite <- E.
      rewrite (eval_coeffs K P x n) by (unfold P; rewrite map_length, seq_length; lia).
      transitivity (eval f (h * g ^ i) * W i * fsum (map (fun m => coeff P m * x ^ m) (seq 0 n))); [|ring].
      rewrite <- fsum_map_mul. apply fsum_map_ext. intros m _. unfold c. rewrite HPc. ring. }
    rewrite <- HS. apply eval_ext. intros i. apply fsub_eq0.
    set (D := map (fun m => coeff S m - coeff f m) (seq 0 n)).
    assert (HD : forall m, coeff D m = coeff S m - coeff f m).
    { intros m. unfold D. rewrite coeff_map_seq. destruct (Nat.ltb_spec m n); [reflexivity|]. rewrite !coeff_over; [ring|lia|]. unfold S. rewrite map_length, seq_length. auto. }
    rewrite <- HD. apply (roots_bound K (coset_points h g n) D).
    - apply points_nodup; auto.
    - rewrite coset_length. unfold D. rewrite map_length, seq_length. lia.
    - intros x Hx. rewrite (eval_linear K S f D 1 (- (1)) x) by (intros; rewrite HD; ring). apply in_map_iff in Hx. destruct Hx as (m & <- & Hm). apply in_seq in Hm.
      rewrite HS. rewrite (fsum_single K _ n m) by (try lia; intros j Hj Hne; rewrite basis_inside by (auto; lia);
        replace (Nat.eqb j m) with false by (symmetry; apply Nat.eqb_neq; auto); ring).
      rewrite basis_inside by (auto; lia). rewrite Nat.eqb_refl. ring.
  Qed.
End DP.
