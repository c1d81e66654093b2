From Coq Require Import ZArith List Bool Lia Arith Ring Field Field_theory.
From Verif Require Import Field EvalsModel EvalsSpec.
Import ListNotations.
Open Scope fld_scope.

Section P.
  Variable K : fld.
  Add Field Kfev : (fld_theory K).
  Implicit Types a b e : list K.
  Notation small md e := (Z.of_nat (length e) <= md + 1)%Z.

  Lemma make_ok md e : (0 <= md)%Z -> small md e -> ev_make md e = Some e.
  Proof. intros H0 H. unfold ev_make. replace (_ <=? _)%Z with true; [reflexivity|]. symmetry. apply Z.leb_le. destruct e; cbn [ev_degree length] in *; lia. Qed.
  Lemma zip_length f a b : length a = length b -> length (zip f a b) = length a.
  Proof. intros H. unfold zip. rewrite map_length, combine_length. lia. Qed.
  Lemma zip_nth f : forall a b i, length a = length b -> (i < length a)%nat -> ev_at (zip f a b) i = f (ev_at a i) (ev_at b i).
  Proof.
    induction a as [|x a IH]; intros [|y b] [|i] L H; cbn [length] in *; try lia; try discriminate; [reflexivity|].
    injection L as L. apply (IH b i L). lia.
  Qed.
  Lemma at_over e i : (length e <= i)%nat -> ev_at e i = 0.
  Proof. intros H. apply nth_overflow. exact H. Qed.
  Lemma zip_at f a b i : length a = length b -> f 0 0 = 0 -> ev_at (zip f a b) i = f (ev_at a i) (ev_at b i).
  Proof.
    intros L H0. destruct (Nat.lt_ge_cases i (length a)) as [H|H]; [apply zip_nth; auto|].
    rewrite !at_over by (rewrite ?zip_length; lia). auto.
  Qed.
  Lemma map_at (f : K -> K) e i : f 0 = 0 -> ev_at (map f e) i = f (ev_at e i).
  Proof. intros H. unfold ev_at. pose proof (map_nth f e 0 i) as X. rewrite H in X. exact X. Qed.

  Ltac mk := rewrite make_ok; [|lia|rewrite ?zip_length, ?map_length by auto; auto].
  Lemma add_ok md a b : (0 <= md)%Z -> small md a -> small md b ->
    (compatible a b -> result (ev_add md a b) md (fun i => ev_at a i + ev_at b i) /\ ev_add_in_place a b = ev_add md a b /\
                       result (ev_sub md a b) md (fun i => ev_at a i - ev_at b i) /\ ev_sub_in_place md a b = ev_sub md a b) /\
    (~ compatible a b -> ev_add md a b = None /\ ev_add_in_place a b = None /\ ev_sub md a b = None /\ ev_sub_in_place md a b = None).
  Proof.
    intros H0 Ha Hb. split.
    - intros HC. destruct a as [|x a'] eqn:Ea; [|destruct b as [|y b'] eqn:Eb].
      + split; [|split; [reflexivity|split; [|reflexivity]]].
        * exists b. split; [reflexivity|]. split; [auto|]. intros i. unfold ev_at at 2. destruct i; cbn [nth]; ring.
        * unfold ev_sub, ev_negate. destruct b as [|y b'] eqn:Eb.
          -- exists []. split; [reflexivity|]. split; [auto|]. intros i. unfold ev_at. destruct i; cbn [nth]; ring.
          -- rewrite <- Eb in *. mk. exists (map fopp b). split; [reflexivity|]. split; [rewrite map_length; auto|]. intros i. rewrite map_at by ring.
             unfold ev_at at 2. destruct i; cbn [nth]; ring.
      + split; [|split; [reflexivity|split; [|reflexivity]]]; (exists (x :: a'); split; [reflexivity|]; split; [auto|]; intros i;
          replace (ev_at (@nil K) i) with (0 : K) by (destruct i; reflexivity); ring).
      + assert (L : length a = length b). { subst. destruct HC as [X|[X|X]]; [discriminate|discriminate|auto]. }
        cbn [ev_add ev_add_in_place ev_sub ev_sub_in_place]. rewrite <- Ea, <- Eb in *. rewrite L, Nat.eqb_refl.
        rewrite !make_ok by (rewrite ?zip_length by auto; auto).
        split; [|split; [reflexivity|split; [|reflexivity]]]; eexists; (split; [reflexivity|]); (split; [rewrite zip_length by auto; auto|]);
          intros i; apply zip_at; auto; ring.
    - intros HC. destruct a as [|x a'] eqn:Ea; [exfalso; apply HC; left; auto|]. destruct b as [|y b'] eqn:Eb; [exfalso; apply HC; right; left; auto|].
      rewrite <- Ea, <- Eb in *. assert (L : length a <> length b) by (intros X; apply HC; right; right; auto).
      subst a b. cbn [ev_add ev_add_in_place ev_sub ev_sub_in_place]. apply Nat.eqb_neq in L. rewrite L. auto.
  Qed.
  Lemma mul_ok md a b : (0 <= md)%Z -> small md a -> small md b ->
    (compatible a b -> result (ev_mul md a b) md (fun i => ev_at a i * ev_at b i) /\ ev_mul_in_place a b = ev_mul md a b) /\
    (~ compatible a b -> ev_mul md a b = None /\ ev_mul_in_place a b = None).
  Proof.
    intros H0 Ha Hb. split.
    - intros HC. destruct a as [|x a'] eqn:Ea; [|destruct b as [|y b'] eqn:Eb].
      + split; [|reflexivity]. exists []. split; [reflexivity|]. split; [auto|]. intros i. unfold ev_at at 1 2. destruct i; cbn [nth]; ring.
      + split; [|reflexivity]. exists []. split; [reflexivity|]. split; [cbn; lia|]. intros i.
        replace (ev_at (@nil K) i) with (0 : K) by (destruct i; reflexivity). ring.
      + assert (L : length a = length b). { subst. destruct HC as [X|[X|X]]; [discriminate|discriminate|auto]. }
        cbn [ev_mul ev_mul_in_place]. rewrite <- Ea, <- Eb in *. rewrite L, Nat.eqb_refl.
        rewrite !make_ok by (rewrite ?zip_length by auto; auto). split; [|reflexivity]. eexists. split; [reflexivity|]. split; [rewrite zip_length by auto; auto|].
        intros i. apply zip_at; auto; ring.
    - intros HC. destruct a as [|x a'] eqn:Ea; [exfalso; apply HC; left; auto|]. destruct b as [|y b'] eqn:Eb; [exfalso; apply HC; right; left; auto|].
      rewrite <- Ea, <- Eb in *. assert (L : length a <> length b) by (intros X; apply HC; right; right; auto).
      subst a b. cbn [ev_mul ev_mul_in_place]. apply Nat.eqb_neq in L. rewrite L. auto.
  Qed.
  Lemma scale_ok md a s : (0 <= md)%Z -> small md a ->
    result (ev_scale md a s) md (fun i => ev_at a i * s) /\ result (Some (ev_scale_in_place a s)) md (fun i => ev_at a i * s) /\
    result (ev_negate md a) md (fun i => - ev_at a i) /\ ev_negate md a = Some (ev_negate_in_place a).
  Proof.
    intros H0 Ha. destruct a as [|x a'] eqn:Ea.
    - split; [|split; [|split; [|reflexivity]]]; (exists []; split; [reflexivity|]; split; [auto|]; intros i;
        replace (ev_at (@nil K) i) with (0 : K) by (destruct i; reflexivity); ring).
    - cbn [ev_scale ev_scale_in_place ev_negate ev_negate_in_place]. rewrite <- Ea in *. clear x a' Ea.
      split; [|split; [|split]].
      + destruct (feqb s 0) eqn:E0; [|destruct (feqb s 1) eqn:E1].
        * apply (proj1 (feqb_eq K _ _)) in E0. subst s. exists []. split; [reflexivity|]. split; [cbn; lia|]. intros i. unfold ev_at at 1. destruct i; cbn [nth]; ring.
        * apply (proj1 (feqb_eq K _ _)) in E1. subst s. exists a. split; [reflexivity|]. split; [auto|]. intros i. ring.
        * mk. eexists. split; [reflexivity|]. split; [rewrite map_length; auto|]. intros i. rewrite (map_at (fun x => x * s)) by ring. reflexivity.
      + destruct (feqb s 1) eqn:E1.
        * apply (proj1 (feqb_eq K _ _)) in E1. subst s. exists a. split; [reflexivity|]. split; [auto|]. intros i. ring.
        * eexists. split; [reflexivity|]. split; [rewrite map_length; auto|]. intros i. rewrite (map_at (fun x => x * s)) by ring. reflexivity.
      + mk. eexists. split; [reflexivity|]. split; [rewrite map_length; auto|]. intros i. apply map_at. ring.
      + mk. reflexivity.
  Qed.

  Lemma forallb_nz b : forallb (fun y => negb (feqb y 0)) b = true <-> forall i, (i < length b)%nat -> ev_at b i <> 0.
  Proof.
    rewrite forallb_forall. split.
    - intros H i Hi E. specialize (H (ev_at b i) (nth_In b 0 Hi)). rewrite E, feqb_refl in H. discriminate.
    - intros H y Hy. apply (In_nth b y 0) in Hy as (i & Hi & <-). specialize (H i Hi). apply (proj2 (feqb_neq K _ _)) in H. unfold ev_at in H. rewrite H. reflexivity.
  Qed.
  Lemma div_ok md a b : (0 <= md)%Z -> small md a -> small md b ->
    (div_fails a b -> ev_div md a b = Some None /\ snd (ev_div_in_place a b) = false) /\
    (~ div_fails a b -> exists e, ev_div md a b = Some (Some e) /\ ev_div_in_place a b = (e, true) /\ length e = length a /\
       forall i, (i < length a)%nat -> ev_at e i = ev_at a i / ev_at b i).
  Proof.
    intros H0 Ha Hb. unfold div_fails. split.
    - intros [->|[Hne HD]]; [auto|]. destruct b as [|y b'] eqn:Eb; [auto|]. destruct a as [|x a'] eqn:Ea; [congruence|].
      cbn [ev_div ev_div_in_place]. rewrite <- Ea, <- Eb in *. destruct (Nat.eqb_spec (length a) (length b)) as [L|L]; [|auto]. cbn [negb].
      destruct HD as [|(i & Hi & Hz)]; [contradiction|]. 
      destruct (forallb (fun y => negb (feqb y 0)) b) eqn:F; [|auto]. exfalso. apply (proj1 (forallb_nz b) F i Hi Hz).
    - intros HN. destruct b as [|y b'] eqn:Eb; [exfalso; apply HN; left; auto|]. destruct a as [|x a'] eqn:Ea.
      + exists []. split; [reflexivity|]. split; [reflexivity|]. split; [reflexivity|]. intros i Hi. cbn in Hi. lia.
      + cbn [ev_div ev_div_in_place]. rewrite <- Ea, <- Eb in *.
        assert (L : length a = length b). { destruct (Nat.eq_dec (length a) (length b)); [auto|]. exfalso. apply HN. right. split; [subst; discriminate|]. auto. }
        assert (F : forall i, (i < length b)%nat -> ev_at b i <> 0). { intros i Hi E. apply HN. right. split; [subst; discriminate|]. right. exists i. auto. }
        rewrite L, Nat.eqb_refl. cbn [negb]. rewrite (proj2 (forallb_nz b) F). rewrite make_ok by (rewrite ?zip_length by auto; auto).
        cbn [option_map]. exists (zip fdiv a b). split; [reflexivity|]. split.
        * f_equal. unfold zip. apply map_ext_in. intros [u v] Huv. apply in_combine_r in Huv. cbn [fst snd].
          apply (In_nth b v 0) in Huv as (i & Hi & <-). pose proof (F i Hi) as HF. apply (proj2 (feqb_neq K _ _)) in HF. unfold ev_at in HF. rewrite HF. reflexivity.
        * rewrite zip_length by auto. split; [auto|]. intros i Hi. apply zip_nth; auto; lia.
  Qed.
  Lemma div_scalar_ok md a s : (0 <= md)%Z -> small md a ->
    (s = 0 -> ev_div_scalar md a s = Some None /\ ev_div_scalar_in_place a s = (a, false)) /\
    (s <> 0 -> exists e, ev_div_scalar md a s = Some (Some e) /\ (forall i, ev_at e i = ev_at a i / s) /\
       exists e', ev_div_scalar_in_place a s = (e', true) /\ forall i, ev_at e' i = ev_at a i / s).
  Proof.
    intros H0 Ha. unfold ev_div_scalar, ev_div_scalar_in_place. split.
    - intros ->. rewrite feqb_refl. auto.
    - intros Hs. apply (proj2 (feqb_neq K _ _)) in Hs as E. rewrite E. destruct (scale_ok md a (finv s) H0 Ha) as ((e & E1 & _ & V1) & (e' & E2 & _ & V2) & _).
      rewrite E1. exists e. split; [reflexivity|]. injection E2 as E2. split.
      + intros i. rewrite V1. field. exact Hs.
      + exists e'. rewrite E2. split; [reflexivity|]. intros i. rewrite V2. field. exact Hs.
  Qed.

  (** ** Equality *)
  Lemma is_zero_iff a : ev_is_zero a = true <-> forall i, ev_at a i = 0.
  Proof.
    destruct a as [|x a'] eqn:Ea.
    - split; [|reflexivity]. intros _ i. destruct i; reflexivity.
    - unfold ev_is_zero. rewrite <- Ea. rewrite forallb_forall. split.
      + intros H i. destruct (Nat.lt_ge_cases i (length a)) as [L|L]; [|apply at_over; auto]. apply (proj1 (feqb_eq K _ _)). apply H. apply nth_In. exact L.
      + intros H y Hy. apply (In_nth a y 0) in Hy as (i & Hi & <-). apply (proj2 (feqb_eq K _ _)). apply H.
  Qed.
  Lemma is_one_iff a : ev_is_one a = true <-> a <> [] /\ forall x, In x a -> x = 1.
  Proof.
    destruct a as [|x a'] eqn:Ea.
    - split; [discriminate|]. intros [H _]. congruence.
    - unfold ev_is_one. rewrite <- Ea. rewrite forallb_forall. split.
      + intros H. split; [subst; discriminate|]. intros y Hy. apply (proj1 (feqb_eq K _ _)). auto.
      + intros [_ H] y Hy. apply (proj2 (feqb_eq K _ _)). auto.
  Qed.
  Lemma vec_eqb_iff : forall a b, vec_eqb a b = true <-> a = b.
  Proof.
    induction a as [|x a IH]; intros [|y b]; cbn [vec_eqb]; try (split; [discriminate|discriminate]); [split; reflexivity|].
    rewrite andb_true_iff, IH. split.
    - intros [H ->]. apply (proj1 (feqb_eq K _ _)) in H. congruence.
    - intros E. injection E as -> ->. split; [apply feqb_refl|reflexivity].
  Qed.
  (** operator== of vectors with compatible sizes is equality of all values. *)
  Lemma at_ext a b : length a = length b -> (a = b <-> forall i, ev_at a i = ev_at b i).
  Proof.
    intros L. split; [intros ->; reflexivity|]. intros H. apply (nth_ext a b 0 0 L). intros n _. apply H.
  Qed.
  Lemma eqb_iff a b : compatible a b -> (ev_eqb a b = true <-> forall i, ev_at a i = ev_at b i).
  Proof.
    intros HC. destruct a as [|x a'] eqn:Ea; [|destruct b as [|y b'] eqn:Eb].
    - cbn [ev_eqb]. rewrite is_zero_iff. split; intros H i; specialize (H i); replace (ev_at (@nil K) i) with (0 : K) in * by (destruct i; reflexivity); auto.
    - cbn [ev_eqb]. rewrite is_zero_iff. split; intros H i; specialize (H i); replace (ev_at (@nil K) i) with (0 : K) in * by (destruct i; reflexivity); auto.
    - cbn [ev_eqb]. rewrite <- Ea, <- Eb in *. rewrite vec_eqb_iff. apply at_ext. subst. destruct HC as [X|[X|X]]; [discriminate|discriminate|exact X].
  Qed.
  Lemma eqb_incompatible a b : ~ compatible a b -> ev_eqb a b = false.
  Proof.
    intros HC. destruct a as [|x a'] eqn:Ea; [exfalso; apply HC; left; auto|]. destruct b as [|y b'] eqn:Eb; [exfalso; apply HC; right; left; auto|].
    cbn [ev_eqb]. rewrite <- Ea, <- Eb in *. destruct (vec_eqb a b) eqn:E; [|reflexivity]. apply vec_eqb_iff in E. exfalso. apply HC. right. right. congruence.
  Qed.
  Lemma eqb_equiv a b c : ev_eqb a a = true /\ ev_eqb a b = ev_eqb b a /\
    (b <> [] -> ev_eqb a b = true -> ev_eqb b c = true -> ev_eqb a c = true).
  Proof.
    assert (R : forall x : list K, compatible x x) by (intros; right; right; auto).
    assert (S : forall x y : list K, compatible x y -> compatible y x). { intros x y [->|[->|H]]; [right; left|left|right; right]; auto. }
    split; [apply eqb_iff; auto|]. 
    assert (SY : ev_eqb a b = ev_eqb b a).
    { destruct (ev_eqb a b) eqn:E1, (ev_eqb b a) eqn:E2; try reflexivity; exfalso.
      - assert (C : compatible a b). { destruct (list_eq_dec (f_dec K) a []) as [->|]; [left; auto|]. destruct (list_eq_dec (f_dec K) b []) as [->|]; [right; left; auto|].
          destruct (Nat.eq_dec (length a) (length b)); [right; right; auto|]. rewrite eqb_incompatible in E1; [discriminate|]. intros [|[|]]; auto. }
        rewrite <- not_true_iff_false in E2. apply E2. apply eqb_iff; auto. intros i. symmetry. revert i. apply eqb_iff; auto.
      - assert (C : compatible a b). { destruct (list_eq_dec (f_dec K) a []) as [->|]; [left; auto|]. destruct (list_eq_dec (f_dec K) b []) as [->|]; [right; left; auto|].
          destruct (Nat.eq_dec (length a) (length b)); [right; right; auto|]. rewrite (eqb_incompatible b a) in E2; [discriminate|]. intros [|[|]]; auto. }
        rewrite <- not_true_iff_false in E1. apply E1. apply eqb_iff; auto. intros i. symmetry. revert i. apply eqb_iff; auto. }
    split; [exact SY|]. intros Hb E1 E2.
    assert (D : forall x y : list K, ev_eqb x y = true -> compatible x y).
    { intros x y E. destruct (list_eq_dec (f_dec K) x []) as [->|]; [left; auto|]. destruct (list_eq_dec (f_dec K) y []) as [->|]; [right; left; auto|].
      destruct (Nat.eq_dec (length x) (length y)); [right; right; auto|]. rewrite (eqb_incompatible x y) in E; [discriminate|]. intros [|[|]]; auto. }
    apply D in E1 as C1. apply D in E2 as C2. apply eqb_iff.
    - destruct C1 as [->|[->|C1]]; [left; auto|congruence|]. destruct C2 as [->|[->|C2]]; [congruence|right; left; auto|]. right. right. congruence.
    - intros i. transitivity (ev_at b i); revert i; apply eqb_iff; auto.
  Qed.
End P.
