(** Assembly of the domain theorems. *)
From Coq Require Import ZArith List Arith Lia Permutation Bool Ring Field Field_theory.
From Verif Require Import Field Zp PolyModel PolySpec PolyProof PolyProof3 PolyProof5 FFTModel FFTSpec FFTProof FFTProof4 FFTProof5 FFTExtra DomainModel DomainSpec DomainProof DomainProof2.
Import ListNotations.
From Coq Require Import Sorted.
Open Scope fld_scope.

Section Extra.
  Variable K : fld.
  Add Field Kfde : (fld_theory K).
  Implicit Types (g h root tau : K) (d sub : domain K).

  Lemma lagrange_all adicity root k h d threads tau : (adicity < 62)%nat -> primitive_root root (2 ^ adicity) -> (k <= adicity)%nat ->
    radix2_domain adicity root k h d -> (0 < threads < 128)%Z ->
    let xs := coset_points h (generator adicity root k) (2 ^ k) in
    (exists l, all_lagrange threads d tau = Some l /\ l = map (lagrange_basis xs tau) (seq 0 (2 ^ k)) /\
       forall f : list K, (length f <= 2 ^ k)%nat -> fsum (map (fun i => eval f (nth i xs 0) * nth i l 0) (seq 0 (2 ^ k))) = eval f tau) /\
    (forall from size, (from + size <= 2 ^ k)%nat -> partial_lagrange threads d tau (Z.of_nat from) size = Some (map (lagrange_basis xs tau) (seq from size))) /\
    (forall from size, (2 ^ k < size)%nat -> partial_lagrange threads d tau from size = None).
  Proof.
    intros Ha HP Hk HR Ht xs. destruct (rdom_ok _ _ _ _ _ _ Ha HP Hk HR) as [HD HG]. split; [|split].
    - eexists. split; [|split; [reflexivity|]].
      + unfold all_lagrange. rewrite (do_size _ _ _ _ _ HD). apply (partial_lagrange_spec K threads d k _ h tau 0 (2 ^ k)); auto; lia.
      + intros f Hf. rewrite <- (basis_interpolates K h (generator adicity root k) k tau f HG (do_off_nz _ _ _ _ _ HD) Hf).
        apply fsum_map_ext. intros i Hi. apply in_seq in Hi.
        f_equal.
        * f_equal. unfold xs, coset_points. rewrite (nth_indep _ 0 (h * generator adicity root k ^ 0)) by (rewrite map_length, seq_length; lia).
          rewrite (map_nth (fun i => h * generator adicity root k ^ i)), seq_nth by lia. reflexivity.
        * rewrite (nth_indep _ 0 (lagrange_basis xs tau 0)) by (rewrite map_length, seq_length; lia). rewrite map_nth, seq_nth by lia. reflexivity.
    - intros from size Hs. apply (partial_lagrange_spec K threads d k _ h tau from size); auto; lia.
    - intros from size Hs. apply (partial_lagrange_too_many K threads d k (generator adicity root k) h); auto.
  Qed.

  Lemma vanishing_all adicity root k h d md tau : (adicity < 62)%nat -> primitive_root root (2 ^ adicity) -> (k <= adicity)%nat ->
    radix2_domain adicity root k h d -> (Z.of_nat (2 ^ k) <= md)%Z ->
    let xs := coset_points h (generator adicity root k) (2 ^ k) in
    evaluate_vanishing d tau = fprod (map (fun x => tau - x) xs) /\ (evaluate_vanishing d tau = 0 <-> In tau xs) /\
    exists s, get_vanishing md d = Some s /\ scanonical s /\ seval s tau = evaluate_vanishing d tau.
  Proof.
    intros Ha HP Hk HR Hmd xs. destruct (rdom_ok _ _ _ _ _ _ Ha HP Hk HR) as [HD HG]. pose proof (pow2_1 k).
    pose proof (do_off_nz _ _ _ _ _ HD) as Hh. rewrite (vanishing_spec' K d k (generator adicity root k) h) by (auto; lia).
    split; [symmetry; apply vanishing_product; auto; lia|]. split; [apply vanishing_zero; auto; lia|].
    destruct (get_vanishing_spec K md d k _ h ltac:(lia) HD Hmd) as [E Hc]. eexists. split; [exact E|]. split; [exact Hc|]. apply seval_vanishing.
  Qed.

  Lemma filter_all adicity root k h d k' h' sub sort md : (adicity < 62)%nat -> primitive_root root (2 ^ adicity) -> (k <= adicity)%nat -> (k' <= adicity)%nat ->
    radix2_domain adicity root k h d -> radix2_domain adicity root k' h' sub -> sorts K sort -> (Z.of_nat (2 ^ k) <= md < 2 ^ 64)%Z -> (Z.of_nat (2 ^ k') <= md)%Z ->
    let xs := coset_points h (generator adicity root k) (2 ^ k) in let ys := coset_points h' (generator adicity root k') (2 ^ k') in
    match get_filter sort md d sub with
    | Some q => (forall y, In y ys -> In y xs) /\ canonical q /\ 
                (forall x, (In x ys -> eval q x = h ^ (2 ^ k)) /\ (~ In x ys -> In x xs -> eval q x = 0) /\
                   exists v, evaluate_filter d sub x = Some v /\ (In x ys -> v = 1) /\ (~ In x ys -> eval q x = v * h' ^ (2 ^ k')))
    | None => exists y, In y ys /\ ~ In y xs
    end.
  Proof.
    intros Ha HP Hk Hk' HR HR' Hs Hmd Hmd' xs ys.
    destruct (rdom_ok _ _ _ _ _ _ Ha HP Hk HR) as [HD HG]. destruct (rdom_ok _ _ _ _ _ _ Ha HP Hk' HR') as [HD' HG'].
    pose proof (do_off_nz _ _ _ _ _ HD) as Hh. pose proof (do_off_nz _ _ _ _ _ HD') as Hh'.
    destruct (filter_spec K sort md d sub k _ h k' _ h' Hs ltac:(lia) ltac:(lia) ltac:(lia) HD HD' HG HG' ltac:(lia) ltac:(lia)) as [F1 F2].
    pose proof (contained_iff K k _ h k' _ h' HG Hh HG' Hh') as CI.
    assert (Hdec : {(k' <= k)%nat /\ h' ^ (2 ^ k) = h ^ (2 ^ k)} + {~ ((k' <= k)%nat /\ h' ^ (2 ^ k) = h ^ (2 ^ k))}).
    { destruct (le_dec k' k); [|right; tauto]. destruct (f_dec K (h' ^ (2 ^ k)) (h ^ (2 ^ k))); [left; auto|right; tauto]. }
    destruct Hdec as [Hc|Hc].
    - destruct (F2 Hc) as (q & E & Hq & Hv). rewrite E. split; [apply CI; exact Hc|]. split; [exact Hq|]. intros x.
      destruct (filter_values K k _ h k' _ h' x HG Hh HG' Hh' (proj1 Hc) (proj2 Hc) _ (Hv x)) as (V1 & V2 & V3).
      split; [exact V1|]. split; [exact V2|].
      destruct (evaluate_filter_spec K d sub k _ h k' _ h' x ltac:(lia) ltac:(lia) HD HD' HG HG') as [W1 W2].
      assert (D : {In x ys} + {~ In x ys}) by (apply in_dec; apply f_dec).
      destruct D as [D|D].
      + exists 1. split; [apply W1; exact D|]. split; [auto|]. intros X. contradiction.
      + destruct (W2 D) as (v & E2 & Hv2). exists v. split; [exact E2|]. split; [intros X; contradiction|]. intros _.
        assert (NZ : fnat (2 ^ k) * (x ^ (2 ^ k') - h' ^ (2 ^ k')) <> 0).
        { apply fmul_neq0; [apply (fnat_pow2_prim K (generator adicity root k)); auto|]. intros X. apply D.
          apply (vanishing_zero K h' (generator adicity root k') (2 ^ k') x); auto. pose proof (pow2_1 k'). lia. }
        apply (fmul_cancel_l K _ _ _ NZ). 
        transitivity (eval q x * (fnat (2 ^ k) * (x ^ (2 ^ k') - h' ^ (2 ^ k')))); [ring|]. rewrite V3.
        transitivity (v * (fnat (2 ^ k) * (x ^ (2 ^ k') - h' ^ (2 ^ k'))) * h' ^ (2 ^ k')); [rewrite Hv2|]; ring.
    - rewrite (F1 Hc).
      assert (X : ~ (forall y, In y ys -> In y xs)) by (intros X; apply Hc, CI; exact X).
      assert (E : existsb (fun y => negb (if in_dec (f_dec K) y xs then true else false)) ys = true).
      { destruct (existsb _ ys) eqn:E; [reflexivity|]. exfalso. apply X. intros y Hy. 
        destruct (in_dec (f_dec K) y xs) as [I|I]; [exact I|]. exfalso. rewrite <- Bool.not_true_iff_false in E. apply E.
        apply existsb_exists. exists y. split; [exact Hy|]. destruct (in_dec (f_dec K) y xs); [contradiction|reflexivity]. }
      apply existsb_exists in E as (y & Hy & E). exists y. split; [exact Hy|]. destruct (in_dec (f_dec K) y xs); [discriminate|auto].
  Qed.
End Extra.

Section Filters.
  Variable K : fld.
  Add Field Kfdf : (fld_theory K).
  Lemma filter_subgroup adicity (root : K) k d k' (h' : K) sub sort md : (adicity < 62)%nat -> primitive_root root (2 ^ adicity) -> (k <= adicity)%nat -> (k' <= adicity)%nat ->
    radix2_domain adicity root k 1 d -> radix2_domain adicity root k' h' sub -> sorts K sort -> (Z.of_nat (2 ^ k) <= md < 2 ^ 64)%Z -> (Z.of_nat (2 ^ k') <= md)%Z ->
    let xs := coset_points 1 (generator adicity root k) (2 ^ k) in let ys := coset_points h' (generator adicity root k') (2 ^ k') in
    match get_filter sort md d sub with
    | Some q => (forall y, In y ys -> In y xs) /\ canonical q /\ 
                (forall x, (In x ys -> eval q x = 1) /\ (~ In x ys -> In x xs -> eval q x = 0)) /\
                (h' = 1 -> forall x, evaluate_filter d sub x = Some (eval q x))
    | None => exists y, In y ys /\ ~ In y xs
    end.
  Proof.
    intros Ha HP Hk Hk' HR HR' Hs Hmd Hmd' xs ys.
    pose proof (filter_all K adicity root k 1 d k' h' sub sort md Ha HP Hk Hk' HR HR' Hs Hmd Hmd') as H. cbv zeta in H. fold xs ys in H.
    destruct (get_filter sort md d sub) as [q|]; [|exact H]. destruct H as (H1 & H2 & H3). split; [exact H1|]. split; [exact H2|]. split.
    - intros x. destruct (H3 x) as (A & B & _). rewrite fpow_one in A. auto.
    - intros -> x. destruct (H3 x) as (A & _ & v & E & V1 & V2). rewrite E. f_equal. rewrite fpow_one in *.
      destruct (in_dec (f_dec K) x ys) as [I|I]; [rewrite A, V1 by auto; reflexivity|]. rewrite V2 by auto. ring.
  Qed.
End Filters.

(** A sort by degree, to run the examples. *)
Fixpoint insert_term {K : fld} (t : Z * K) (l : list (Z * K)) : list (Z * K) :=
  match l with [] => [t] | u :: r => if (fst t <=? fst u)%Z then t :: l else u :: insert_term t r end.
Definition isort {K : fld} (l : list (Z * K)) : list (Z * K) := fold_right insert_term [] l.
Lemma insert_term_perm {K : fld} (t : Z * K) l : Permutation (t :: l) (insert_term t l).
Proof.
  induction l as [|u l IH]; cbn [insert_term]; [auto|]. destruct (_ <=? _)%Z; [auto|]. eapply perm_trans; [apply perm_swap|]. apply perm_skip. exact IH.
Qed.
Lemma isort_sorts (K : fld) : sorts K isort.
Proof.
  intros l. induction l as [|t l [IH1 IH2]]; [split; constructor|]. cbn [isort fold_right]. fold (isort l). split.
  - eapply perm_trans; [apply perm_skip; exact IH1|]. apply insert_term_perm.
  - revert IH2. generalize (isort l) as r. clear. intros r. induction r as [|u r IH]; intros H; cbn [insert_term].
    + constructor; constructor.
    + cbn [map] in H. inversion H as [|? ? H1 H2]; subst. destruct (Z.leb_spec (fst t) (fst u)) as [L|L]; cbn [map].
      * constructor; [exact H|]. constructor; [exact L|]. eapply Forall_impl; [|exact H2]. intros; lia.
      * constructor; [apply IH; exact H1|]. rewrite Forall_forall in *. intros z Hz. 
        apply in_map_iff in Hz as (v & <- & Hv). apply (Permutation_in _ (Permutation_sym (insert_term_perm t r))) in Hv. destruct Hv as [<-|Hv]; [lia|].
        apply H2. apply in_map. exact Hv.
Qed.
