(** Permutations of a finite set, and the effect of exchanging two values. *)
From Coq Require Import List Arith Bool Lia Relations.
Import ListNotations.
Open Scope nat_scope.

Section Orbits.
  Context {A : Type}.
  Hypothesis eq_dec : forall x y : A, {x = y} + {x <> y}.

  Fixpoint iter (k : nat) (f : A -> A) (x : A) : A := match k with O => x | S k' => iter k' f (f x) end.
  Definition reach (f : A -> A) (x y : A) : Prop := exists k, iter k f x = y.

  Lemma iter_add : forall f m n x, iter (m + n) f x = iter n f (iter m f x).
  Proof. intros f. induction m as [|m IH]; intros n x; [reflexivity|]. cbn. apply IH. Qed.
  Lemma iter_S : forall f k x, iter (S k) f x = f (iter k f x).
  Proof. intros f k x. replace (S k) with (k + 1) by lia. now rewrite iter_add. Qed.
  Lemma reach_refl : forall f x, reach f x x. Proof. intros f x. now exists 0. Qed.
  Lemma reach_step : forall f x, reach f x (f x). Proof. intros f x. now exists 1. Qed.
  Lemma reach_trans : forall f x y z, reach f x y -> reach f y z -> reach f x z.
  Proof. intros f x y z [k <-] [k' <-]. exists (k + k'). apply iter_add. Qed.

  (** Bounded search. *)
  Lemma search : forall (P : nat -> Prop), (forall i, {P i} + {~ P i}) -> forall n, (exists i, i < n /\ P i /\ forall j, j < i -> ~ P j) \/ (forall i, i < n -> ~ P i).
  Proof.
    intros P D. induction n as [|n IH]; [right; intros i H; lia|]. destruct IH as [(i & Hi & Hp & Hm)|Hn]; [left; exists i; repeat split; auto; lia|].
    destruct (D n) as [Hp|Hp]; [left; exists n; repeat split; auto|right]. intros i Hi. destruct (Nat.eq_dec i n) as [->|]; [exact Hp|apply Hn; lia].
  Qed.
  Lemma least : forall (P : nat -> Prop), (forall i, {P i} + {~ P i}) -> forall n, P n -> exists i, i <= n /\ P i /\ forall j, j < i -> ~ P j.
  Proof. intros P D n H. destruct (search P D (S n)) as [(i & Hi & Hp & Hm)|Hn]; [exists i; repeat split; auto; lia|]. exfalso. apply (Hn n); [lia|exact H]. Qed.

  Variable all : list A.
  Definition closed (f : A -> A) : Prop := forall x, In x all -> In (f x) all.
  Definition injective (f : A -> A) : Prop := forall x y, In x all -> In y all -> f x = f y -> x = y.

  Lemma iter_in : forall f k x, closed f -> In x all -> In (iter k f x) all.
  Proof. intros f. induction k as [|k IH]; intros x C H; cbn; auto. Qed.
  Lemma iter_inj : forall f k x y, closed f -> injective f -> In x all -> In y all -> iter k f x = iter k f y -> x = y.
  Proof. intros f. induction k as [|k IH]; intros x y C I Hx Hy E; cbn in E; auto. Qed.

  Lemma pigeonhole : forall f x, closed f -> In x all -> exists i j, i < j <= length all /\ iter i f x = iter j f x.
  Proof.
    intros f x C H.
    assert (G : forall n, (exists i j, i < j < n /\ iter i f x = iter j f x) \/ NoDup (map (fun i => iter i f x) (seq 0 n))).
    { induction n as [|n IH]; [right; constructor|]. destruct IH as [(i & j & Hij & E)|ND]; [left; exists i, j; split; [lia|exact E]|].
      destruct (search (fun i => iter i f x = iter n f x) (fun i => eq_dec _ _) n) as [(i & Hi & Hp & _)|Hn]; [left; exists i, n; split; [lia|exact Hp]|].
      right. rewrite seq_S, map_app. cbn [map Nat.add].
      assert (HA : Add (iter n f x) (map (fun i => iter i f x) (seq 0 n)) (map (fun i => iter i f x) (seq 0 n) ++ [iter n f x])) by (rewrite <- (app_nil_r (map (fun i : nat => iter i f x) (seq 0 n))) at 1; apply Add_app).
      apply (NoDup_Add HA).
      split; [exact ND|]. intros Hin. apply in_map_iff in Hin. destruct Hin as (i & E & Hi). apply in_seq in Hi. apply (Hn i); [lia|exact E]. }
    destruct (G (S (length all))) as [(i & j & Hij & E)|ND]; [exists i, j; split; [lia|exact E]|]. exfalso.
    assert (L : length (map (fun i => iter i f x) (seq 0 (S (length all)))) <= length all).
    { apply (NoDup_incl_length ND). intros y Hy. apply in_map_iff in Hy. destruct Hy as (i & <- & _). now apply iter_in. }
    rewrite map_length, seq_length in L. lia.
  Qed.

  (** Every element is on a cycle of length at most |all|. *)
  Lemma period : forall f x, closed f -> injective f -> In x all -> exists p, 1 <= p <= length all /\ iter p f x = x /\ forall i, 0 < i < p -> iter i f x <> x.
  Proof.
    intros f x C I H. destruct (pigeonhole f x C H) as (i & j & Hij & E).
    assert (Ep : iter (j - i) f x = x).
    { symmetry. apply (iter_inj f i); auto; [now apply iter_in|]. rewrite <- iter_add. replace (j - i + i) with j by lia. exact E. }
    destruct (least (fun q => iter (S q) f x = x) (fun q => eq_dec _ _) (j - i - 1)) as (q & Hq & Hp & Hm); [now replace (S (j - i - 1)) with (j - i) by lia|].
    exists (S q). split; [lia|]. split; [exact Hp|]. intros k Hk. specialize (Hm (k - 1) ltac:(lia)). now replace (S (k - 1)) with k in Hm by lia.
  Qed.
  Lemma iter_period : forall f p x n, iter p f x = x -> iter (n * p) f x = x.
  Proof. intros f p x n E. induction n as [|n IH]; [reflexivity|]. cbn [Nat.mul]. now rewrite iter_add, E. Qed.
  Lemma reach_sym : forall f x y, closed f -> injective f -> In x all -> reach f x y -> reach f y x.
  Proof.
    intros f x y C I H [k <-]. destruct (period f x C I H) as (p & Hp & E & _). exists (k * p - k). rewrite <- iter_add. replace (k + (k * p - k)) with (k * p) by nia. now apply iter_period.
  Qed.
  Lemma reach_bounded : forall f x y, closed f -> injective f -> In x all -> reach f x y -> exists k, k < length all /\ iter k f x = y.
  Proof.
    intros f x y C I H [k <-]. destruct (period f x C I H) as (p & Hp & E & _). exists (k mod p). pose proof (Nat.mod_upper_bound k p ltac:(lia)). split; [lia|].
    rewrite (Nat.div_mod k p) at 2 by lia. rewrite iter_add, (Nat.mul_comm p), iter_period by exact E. reflexivity.
  Qed.
  Lemma reach_dec : forall f x y, closed f -> injective f -> In x all -> reach f x y \/ ~ reach f x y.
  Proof.
    intros f x y C I H. destruct (search (fun k => iter k f x = y) (fun k => eq_dec _ _) (length all)) as [(k & _ & E & _)|N]; [left; now exists k|right].
    intros R. destruct (reach_bounded f x y C I H R) as (k & Hk & E). exact (N k Hk E).
  Qed.
  Lemma reach_least : forall f x y, reach f x y -> exists k, iter k f x = y /\ forall i, i < k -> iter i f x <> y.
  Proof. intros f x y [k E]. destruct (least (fun k => iter k f x = y) (fun k => eq_dec _ _) k E) as (i & _ & Ei & Hm). now exists i. Qed.

  (** Exchanging the values at a and b, two points of different cycles. *)
  Section Swap.
    Variables (f f' : A -> A) (a b : A).
    Hypothesis C : closed f.
    Hypothesis I : injective f.
    Hypothesis Ha : In a all.
    Hypothesis Hb : In b all.
    Hypothesis sep : ~ reach f a b.
    Hypothesis fa : f' a = f b.
    Hypothesis fb : f' b = f a.
    Hypothesis fo : forall x, In x all -> x <> a -> x <> b -> f' x = f x.

    Lemma sep' : ~ reach f b a.
    Proof. intros H. apply sep. now apply (reach_sym f b a). Qed.
    Lemma a_ne_b : a <> b.
    Proof. intros ->. apply sep, reach_refl. Qed.

    Lemma swap_closed : closed f'.
    Proof.
      intros x Hx. destruct (eq_dec x a) as [->|Na]; [rewrite fa; auto|]. destruct (eq_dec x b) as [->|Nb]; [rewrite fb; auto|]. rewrite fo; auto.
    Qed.
    Lemma swap_injective : injective f'.
    Proof.
      pose proof a_ne_b as AB. intros x y Hx Hy E.
      destruct (eq_dec x a) as [->|Na]; [|destruct (eq_dec x b) as [->|Nb]];
        (destruct (eq_dec y a) as [->|Ma]; [|destruct (eq_dec y b) as [->|Mb]]);
        rewrite ?fa, ?fb, ?(fo x), ?(fo y) in E by auto; auto; try (apply I in E; auto; congruence).
    Qed.

    Lemma same_path : forall x k, In x all -> (forall i, i < k -> iter i f x <> a /\ iter i f x <> b) -> iter k f' x = iter k f x.
    Proof.
      intros x k Hx. revert x Hx. induction k as [|k IH]; intros x Hx H; [reflexivity|]. cbn [iter]. destruct (H 0) as [N1 N2]; [lia|]. cbn in N1, N2. rewrite fo by auto.
      apply IH; auto. intros i Hi. apply (H (S i)). lia.
    Qed.
    Lemma reach_a : forall x, In x all -> reach f x a -> reach f' x a.
    Proof.
      intros x Hx R. destruct (reach_least f x a R) as (k & E & Hm). exists k. rewrite same_path; auto. intros i Hi. split; [now apply Hm|]. intros E'.
      apply sep'. rewrite <- E'. exists (k - i). rewrite <- iter_add. now replace (i + (k - i)) with k by lia.
    Qed.
    Lemma reach_b : forall x, In x all -> reach f x b -> reach f' x b.
    Proof.
      intros x Hx R. destruct (reach_least f x b R) as (k & E & Hm). exists k. rewrite same_path; auto. intros i Hi. split; [|now apply Hm]. intros E'.
      apply sep. rewrite <- E'. exists (k - i). rewrite <- iter_add. now replace (i + (k - i)) with k by lia.
    Qed.
    Lemma reach_ab : reach f' a b.
    Proof.
      apply (reach_trans f' a (f b)); [exists 1; exact fa|]. apply reach_b; [now apply C|]. apply (reach_sym f b (f b)); auto using reach_step.
    Qed.

    Lemma swap_reach : forall x y, In x all -> In y all ->
      (reach f' x y <-> reach f x y \/ (reach f x a /\ reach f b y) \/ (reach f x b /\ reach f a y)).
    Proof.
      intros x y Hx Hy. pose proof swap_closed as C'. pose proof swap_injective as I'. split.
      - intros [k E]. revert x Hx E. induction k as [|k IH]; intros x Hx E; [cbn in E; subst; left; apply reach_refl|].
        cbn [iter] in E. apply IH in E; [|now apply C'].
        destruct (eq_dec x a) as [->|Na]; [|destruct (eq_dec x b) as [->|Nb]].
        + rewrite fa in E. assert (Rb := reach_step f b). destruct E as [E|[[E1 E2]|[E1 E2]]].
          * right. left. split; [apply reach_refl|]. now apply (reach_trans f b (f b)).
          * exfalso. apply sep'. now apply (reach_trans f b (f b)).
          * now left.
        + rewrite fb in E. assert (Ra := reach_step f a). destruct E as [E|[[E1 E2]|[E1 E2]]].
          * right. right. split; [apply reach_refl|]. now apply (reach_trans f a (f a)).
          * now left.
          * exfalso. apply sep. now apply (reach_trans f a (f a)).
        + rewrite fo in E by auto. assert (Rx := reach_step f x). destruct E as [E|[[E1 E2]|[E1 E2]]].
          * left. now apply (reach_trans f x (f x)).
          * right. left. split; [now apply (reach_trans f x (f x))|exact E2].
          * right. right. split; [now apply (reach_trans f x (f x))|exact E2].
      - assert (Ya : reach f' y a -> reach f' a y) by (intros R; now apply (reach_sym f' y a)).
        assert (Yb : reach f' y b -> reach f' b y) by (intros R; now apply (reach_sym f' y b)).
        assert (BA : reach f' b a) by (apply (reach_sym f' a b); auto using reach_ab).
        intros [R|[[R1 R2]|[R1 R2]]].
        + destruct (reach_dec f x a C I Hx) as [Xa|Na]; [|destruct (reach_dec f x b C I Hx) as [Xb|Nb]].
          * apply (reach_trans f' x a); [now apply reach_a|]. apply Ya, reach_a; auto. apply (reach_trans f y x); [now apply (reach_sym f x y)|exact Xa].
          * apply (reach_trans f' x b); [now apply reach_b|]. apply Yb, reach_b; auto. apply (reach_trans f y x); [now apply (reach_sym f x y)|exact Xb].
          * destruct R as [k E]. exists k. rewrite same_path; auto. intros i Hi. split; intros E'; [apply Na|apply Nb]; now exists i.
        + apply (reach_trans f' x a); [now apply reach_a|]. apply (reach_trans f' a b); [apply reach_ab|]. apply Yb, reach_b; auto. now apply (reach_sym f b y).
        + apply (reach_trans f' x b); [now apply reach_b|]. apply (reach_trans f' b a); [exact BA|]. apply Ya, reach_a; auto. now apply (reach_sym f a y).
    Qed.
  End Swap.
End Orbits.
