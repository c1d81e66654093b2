(** Proofs about the KZG family: dense polynomials that need not be canonical, and polynomial functions. *)
From Coq Require Import ZArith Lia List Bool Arith Ring Field Field_theory.
From Verif Require Import Field PolySpec PolyModel PolyProof PolyProof2 PolyProof3 PolyExtra KzgModel.
Import ListNotations.
Open Scope fld_scope.

Section Dense.
  Variable K : fld.
  Add Field Kk1 : (fld_theory K).
  Implicit Types (a b l p : list K).
  (** What SHPlonk's polynomials satisfy: canonical, or the single coefficient that P(X) - R(u) may leave. *)
  Definition okp l : Prop := canonical l \/ (length l <= 1)%nat.
  Lemma degree_le md l n : (Z.of_nat n <= md + 1)%Z -> (0 <= md)%Z -> (length l <= n)%nat -> (Z.of_nat (degree l) <= md)%Z.
  Proof. intros H H0 L. rewrite degree_eq. lia. Qed.

  Lemma add_ip a b : okp a -> okp b -> okp (dense_add_in_place a b) /\ (length (dense_add_in_place a b) <= Nat.max (length a) (length b))%nat /\
    forall x, eval (dense_add_in_place a b) x = eval a x + eval b x.
  Proof.
    intros Ha Hb. unfold dense_add_in_place. destruct (is_zero a) eqn:Ea.
    { apply is_zero_nil in Ea. subst a. split; [exact Hb|]. split; [cbn; lia|]. intros x. rewrite eval_nil. ring. }
    destruct (is_zero b) eqn:Eb.
    { apply is_zero_nil in Eb. subst b. split; [exact Ha|]. split; [cbn; lia|]. intros x. rewrite eval_nil. ring. }
    cbv zeta. split; [left; apply remove_high_canonical|]. split.
    { etransitivity; [apply remove_high_length|]. rewrite map_length, seq_length, app_length, repeat_length. lia. }
    intros x. rewrite (eval_linear K a b _ 1 1); [ring|]. intros i. rewrite remove_high_coeff, coeff_map_seq, app_length, repeat_length.
    destruct (Nat.ltb_spec i (length a + (Nat.max (length a) (length b) - length a))).
    - destruct (Nat.ltb_spec i (length b)); rewrite !at_coeff, pad_coeff; [ring|]. rewrite (coeff_over K b i) by lia. ring.
    - rewrite !coeff_over by lia. ring.
  Qed.
  Lemma map_okp (f : K -> K) l : (forall x, f x = 0 -> x = 0) -> okp l -> okp (map f l).
  Proof. intros Hf [C|L]; [left; apply map_canonical; assumption|right; rewrite map_length; exact L]. Qed.
  Lemma eval_map_mul l s x : eval (map (fun y => y * s) l) x = eval l x * s.
  Proof. rewrite (eval_linear K l [] _ s 0); [rewrite eval_nil; ring|]. intros i. rewrite coeff_map by ring. rewrite (coeff_over K [] i) by (cbn; lia). ring. Qed.
  Lemma eval_remove_high l x : eval (remove_high l) x = eval l x.
  Proof. apply eval_ext. apply remove_high_coeff. Qed.
  Lemma mul_ip l s : okp l -> okp (dense_mul_scalar_in_place l s) /\ (length (dense_mul_scalar_in_place l s) <= length l)%nat /\
    forall x, eval (dense_mul_scalar_in_place l s) x = eval l x * s.
  Proof.
    intros Ha. unfold dense_mul_scalar_in_place. destruct (is_zero l) eqn:E.
    { apply is_zero_nil in E. subst l. cbn [orb]. split; [exact Ha|]. split; [lia|]. intros x. rewrite eval_nil. ring. }
    destruct (isone s) eqn:E1; cbn [orb].
    { apply isone_eq in E1. subst s. split; [exact Ha|]. split; [lia|]. intros x. ring. }
    split; [left; apply remove_high_canonical|]. split; [etransitivity; [apply remove_high_length|]; rewrite map_length; lia|].
    intros x. rewrite eval_remove_high. apply eval_map_mul.
  Qed.
  Lemma mul_s md l s : okp l -> (Z.of_nat (degree l) <= md)%Z -> exists m, dense_mul_scalar md l s = Some m /\ okp m /\ (length m <= length l)%nat /\
    forall x, eval m x = eval l x * s.
  Proof.
    intros Ha Hd. unfold dense_mul_scalar. destruct (is_zero l) eqn:E.
    { apply is_zero_nil in E. subst l. cbn [orb]. exists []. split; [reflexivity|]. split; [exact Ha|]. split; [lia|]. intros x. rewrite eval_nil. ring. }
    destruct (isone s) eqn:E1; cbn [orb].
    { apply isone_eq in E1. subst s. exists l. split; [reflexivity|]. split; [exact Ha|]. split; [lia|]. intros x. ring. }
    destruct (iszero s) eqn:E0.
    { apply iszero_eq in E0. subst s. exists []. split; [reflexivity|]. split; [right; cbn; lia|]. split; [cbn; lia|]. intros x. rewrite eval_nil. ring. }
    exists (map (fun x => x * s) l). split; [apply dense_make_id; rewrite degree_map; exact Hd|]. split.
    { apply map_okp; [|exact Ha]. intros x H. apply iszero_neq in E0. destruct (fmul_integral K _ _ H); [assumption|contradiction]. }
    split; [rewrite map_length; lia|]. intros x. apply eval_map_mul.
  Qed.
  Lemma negate_s md b : okp b -> (Z.of_nat (degree b) <= md)%Z -> exists m, dense_negate md b = Some m /\ okp m /\ (length m <= length b)%nat /\ forall x, eval m x = - eval b x.
  Proof.
    intros Hb Hd. unfold dense_negate. destruct (is_zero b) eqn:E.
    { apply is_zero_nil in E. subst b. exists []. split; [reflexivity|]. split; [exact Hb|]. split; [lia|]. intros x. rewrite eval_nil. ring. }
    exists (map (fun x => - x) b). split; [apply dense_make_id; rewrite degree_map; exact Hd|]. split.
    { apply map_okp; [|exact Hb]. intros x H. replace x with (- - x) by ring. rewrite H. ring. }
    split; [rewrite map_length; lia|]. intros x. rewrite (eval_linear K b [] _ (- (1)) 0); [rewrite eval_nil; ring|].
    intros i. rewrite coeff_map by ring. rewrite (coeff_over K [] i) by (cbn; lia). ring.
  Qed.
  Lemma sub_s md a b : okp a -> okp b -> (Z.of_nat (degree b) <= md)%Z -> exists m, dense_sub md a b = Some m /\ okp m /\ (length m <= Nat.max (length a) (length b))%nat /\
    forall x, eval m x = eval a x - eval b x.
  Proof.
    intros Ha Hb Hd. unfold dense_sub. destruct (is_zero a) eqn:Ea.
    { apply is_zero_nil in Ea. subst a. destruct (negate_s md b Hb Hd) as (m & E & O & L & V). exists m. split; [exact E|]. split; [exact O|]. split; [cbn; lia|]. intros x. rewrite V, eval_nil. ring. }
    destruct (is_zero b) eqn:Eb.
    { apply is_zero_nil in Eb. subst b. exists a. split; [reflexivity|]. split; [exact Ha|]. split; [cbn; lia|]. intros x. rewrite eval_nil. ring. }
    eexists. split; [reflexivity|]. split; [left; apply remove_high_canonical|]. split.
    { etransitivity; [apply remove_high_length|]. rewrite map_length, seq_length. lia. }
    intros x. rewrite (eval_linear K a b _ 1 (- (1))); [ring|]. intros i. rewrite remove_high_coeff, coeff_map_seq, !at_coeff.
    destruct (Nat.ltb_spec i (Nat.max (length a) (length b))); [ring|]. rewrite !coeff_over by lia. ring.
  Qed.
  Lemma sub_ip md a b : okp a -> okp b -> (Z.of_nat (degree b) <= md)%Z -> exists m, dense_sub_in_place md a b = Some m /\ okp m /\ (length m <= Nat.max (length a) (length b))%nat /\
    forall x, eval m x = eval a x - eval b x.
  Proof.
    intros Ha Hb Hd. unfold dense_sub_in_place. destruct (is_zero a) eqn:Ea.
    { apply is_zero_nil in Ea. subst a. destruct (negate_s md b Hb Hd) as (m & E & O & L & V). exists m. split; [exact E|]. split; [exact O|]. split; [cbn; lia|]. intros x. rewrite V, eval_nil. ring. }
    destruct (is_zero b) eqn:Eb.
    { apply is_zero_nil in Eb. subst b. exists a. split; [reflexivity|]. split; [exact Ha|]. split; [cbn; lia|]. intros x. rewrite eval_nil. ring. }
    cbv zeta. eexists. split; [reflexivity|]. split; [left; apply remove_high_canonical|]. split.
    { etransitivity; [apply remove_high_length|]. rewrite map_length, seq_length, app_length, repeat_length. lia. }
    intros x. rewrite (eval_linear K a b _ 1 (- (1))); [ring|]. intros i. rewrite remove_high_coeff, coeff_map_seq, app_length, repeat_length.
    destruct (Nat.ltb_spec i (length a + (Nat.max (length a) (length b) - length a))).
    - destruct (Nat.ltb_spec i (length b)); rewrite !at_coeff, pad_coeff; [ring|]. rewrite (coeff_over K b i) by lia. ring.
    - rewrite !coeff_over by lia. ring.
  Qed.
  Lemma minus_c md p (c : K) : canonical p -> (0 <= md)%Z -> exists m, minus_constant md p c = Some m /\ okp m /\ (length m <= Nat.max (length p) 1)%nat /\
    forall x, eval m x = eval p x - c.
  Proof.
    intros Hp Hm. destruct p as [|p0 ps]; cbn [minus_constant].
    - rewrite dense_make_clean by (cbn; lia). eexists. split; [reflexivity|]. split; [left; apply remove_high_canonical|].
      split; [apply (remove_high_length K [- c])|]. intros x. rewrite eval_remove_high, eval_cons, !eval_nil. ring.
    - eexists. split; [reflexivity|]. split.
      + destruct ps as [|p1 ps]; [right; cbn; lia|left]. exact Hp.
      + split; [cbn [length]; lia|]. intros x. rewrite !eval_cons. ring.
  Qed.

  (** LinearCombinationInPlace: the values combined by powers of [r]. *)
  Lemma lc_polys_spec (r : K) n : forall ps, ps <> [] -> Forall okp ps -> Forall (fun p => (length p <= n)%nat) ps ->
    exists l, lc_polys ps r = Some l /\ okp l /\ (length l <= n)%nat /\ forall x, eval l x = eval (map (fun p => eval p x) ps) r.
  Proof.
    intros ps Hne. destruct (exists_last Hne) as (init & l0 & ->). clear Hne. unfold lc_polys. rewrite rev_app_distr. cbn [rev app].
    rewrite !Forall_app. intros [Oi Ol] [Li Ll]. inversion Ol as [|? ? O0 _]. inversion Ll as [|? ? L0 _]. subst.
    eexists. split; [reflexivity|]. rewrite <- fold_left_rev_right, rev_involutive.
    induction init as [|a init IH]; cbn [fold_right app map].
    - split; [exact O0|]. split; [exact L0|]. intros x. rewrite eval_cons, eval_nil. ring.
    - inversion Oi as [|? ? Oa Oi']. inversion Li as [|? ? La Li']. subst. destruct (IH Oi' Li') as (O & L & V).
      destruct (mul_ip _ r O) as (Om & Lm & Vm). destruct (add_ip _ a Om Oa) as (Os & Ls & Vs).
      split; [exact Os|]. split; [lia|]. intros x. rewrite Vs, Vm, V, eval_cons. ring.
  Qed.
  (** Division by the vanishing polynomial of roots of the dividend. *)
  Lemma div_roots md l (xs : list K) : okp l -> (Z.of_nat (degree l) <= md)%Z -> xs <> [] -> NoDup xs -> (forall x, In x xs -> eval l x = 0) ->
    exists g q, from_roots xs = Some g /\ dense_div md l g = Some (Some q) /\ canonical q /\ (length q <= length l - length xs)%nat /\
      forall x, eval l x = eval q x * fprod (map (fun r => x - r) xs).
  Proof.
    intros Ol Hd Hx Hn Hz. destruct (from_roots_correct K xs) as (g & Eg & [Cg Rg] & Lg & Vg). exists g.
    assert (Gn : g <> []) by (intros E; rewrite E in Lg; discriminate Lg).
    assert (Lx : (1 <= length xs)%nat) by (destruct xs; [congruence|cbn; lia]).
    destruct l as [|c l'].
    { exists []. split; [exact Eg|]. split; [unfold dense_div; rewrite dense_divide_zero_self by exact Gn; reflexivity|]. split; [apply canonical_nil|]. split; [cbn; lia|].
      intros x. rewrite !eval_nil. ring. }
    set (l := c :: l') in *. assert (Ln : l <> []) by discriminate.
    destruct (le_lt_dec (length l) 1) as [L1|L1].
    - assert (l' = []) by (subst l; destruct l'; [reflexivity|cbn in L1; lia]). subst l'. exists []. split; [exact Eg|]. split.
      + unfold dense_div, dense_divide, divide_gen. destruct (is_zero g) eqn:Z; [apply is_zero_nil in Z; contradiction|]. subst l. cbn [is_zero degree length Nat.sub].
        destruct (Nat.ltb_spec 0 (degree g)) as [_|B]; [reflexivity|]. rewrite degree_eq in B. lia.
      + split; [apply canonical_nil|]. split; [cbn; lia|]. destruct xs as [|x0 xs]; [congruence|]. pose proof (Hz x0 (or_introl eq_refl)) as Z0. subst l. rewrite eval_cons, eval_nil in Z0.
        intros x. rewrite eval_cons, !eval_nil. transitivity (c + x0 * 0); [ring|]. rewrite Z0. ring.
    - assert (Cl : canonical l) by (destruct Ol as [C|C]; [exact C|lia]).
      destruct (dense_divide_spec K md l g Cl Cg Ln Gn Hd) as (q & r & E & Cq & Cr & Sr & Id). exists q. split; [exact Eg|].
      assert (Hev : forall x, eval l x = eval q x * fprod (map (fun r => x - r) xs) + eval r x).
      { intros x. rewrite <- (Vg x). rewrite <- (pm_eval K q g x). rewrite (eval_linear K (pm K q g) r l 1 1); [ring|]. intros i. rewrite Id, pm_coeff. ring. }
      assert (R0 : forall i, coeff r i = 0).
      { apply (roots_bound K xs); [exact Hn|unfold smaller in Sr; lia|]. intros x Hi. pose proof (Hev x) as H. rewrite (Hz x Hi) in H.
        assert (P0 : fprod (map (fun r0 => x - r0) xs) = 0).
        { clear - Hi. induction xs as [|y ys IH]; [destruct Hi|]. cbn [map fprod]. destruct Hi as [->|Hi]; [ring|]. rewrite (IH Hi). ring. }
        rewrite P0 in H. etransitivity; [|symmetry; exact H]. ring. }
      split; [unfold dense_div; rewrite E; cbn [option_map fst]; rewrite remove_high_id by exact Cq; reflexivity|]. split; [exact Cq|]. split.
      + destruct q as [|q0 q']; [cbn; lia|]. set (q := q0 :: q') in *. assert (Qn : q <> []) by discriminate.
        pose proof (canonical_lead K q Cq Qn) as Lq. pose proof (canonical_lead K g Cg Gn) as Lgd.
        destruct (le_lt_dec (length l) (length q - 1 + (length g - 1))) as [B|B]; [|lia]. exfalso.
        pose proof (Id (length q - 1 + (length g - 1))%nat) as T. rewrite R0, (coeff_over K l) in T by exact B.
        assert (length q <> 0%nat) by (destruct q; [congruence|discriminate]).
        rewrite (conv_top K (coeff q) (coeff g) (length q - 1) (length g - 1)) in T by (intros; apply coeff_over; lia).
        apply (fmul_neq0 K _ _ Lq Lgd). etransitivity; [|symmetry; exact T]. ring.
      + intros x. rewrite Hev. rewrite (eval_ext K r []); [rewrite eval_nil; ring|]. intros i. rewrite R0, coeff_over by (cbn; lia). reflexivity.
  Qed.
End Dense.

Section Functions.
  Variable K : fld.
  Add Field Kk2 : (fld_theory K).
  Implicit Types (f g : K -> K).
  (** [f] is the function of a polynomial with at most [n] coefficients. *)
  Definition isp (n : nat) f : Prop := exists l : list K, (length l <= n)%nat /\ forall x, eval l x = f x.
  Lemma isp_list (l : list K) n : (length l <= n)%nat -> isp n (eval l). Proof. intros H. exists l. split; [exact H|reflexivity]. Qed.
  Lemma isp_ext n f g : isp n f -> (forall x, f x = g x) -> isp n g.
  Proof. intros (l & L & V) H. exists l. split; [exact L|]. intros x. rewrite V. apply H. Qed.
  Lemma isp_weaken n m f : isp n f -> (n <= m)%nat -> isp m f.
  Proof. intros (l & L & V) H. exists l. split; [lia|exact V]. Qed.
  Lemma isp_zero n : isp n (fun _ => 0). Proof. exists []. split; [cbn; lia|reflexivity]. Qed.
  Lemma isp_const (c : K) : isp 1 (fun _ => c). Proof. exists [c]. split; [cbn; lia|]. intros x. rewrite eval_cons, eval_nil. ring. Qed.
  Lemma isp_linear (a b : K) : isp 2 (fun x => a + b * x). Proof. exists [a; b]. split; [cbn; lia|]. intros x. rewrite !eval_cons, eval_nil. ring. Qed.
  Lemma isp_add n f g : isp n f -> isp n g -> isp n (fun x => f x + g x).
  Proof.
    intros (a & La & Va) (b & Lb & Vb). exists (map (fun i => coeff a i + coeff b i) (seq 0 n)). split; [rewrite map_length, seq_length; lia|].
    intros x. rewrite <- Va, <- Vb. rewrite (eval_linear K a b _ 1 1); [ring|]. intros i. rewrite coeff_map_seq. destruct (Nat.ltb_spec i n); [ring|]. rewrite !coeff_over by lia. ring.
  Qed.
  Lemma isp_scale n f (c : K) : isp n f -> isp n (fun x => c * f x).
  Proof. intros (a & La & Va). exists (map (fun y => y * c) a). split; [rewrite map_length; lia|]. intros x. rewrite eval_map_mul, Va. ring. Qed.
  Lemma isp_sub n f g : isp n f -> isp n g -> isp n (fun x => f x - g x).
  Proof. intros Hf Hg. apply (isp_ext n (fun x => f x + (- (1)) * g x)); [apply isp_add; [exact Hf|apply isp_scale; exact Hg]|]. intros x. ring. Qed.
  Lemma isp_shift n f (c : K) : isp n f -> isp (S n) (fun x => (x - c) * f x).
  Proof.
    intros (a & La & Va). apply (isp_ext (S n) (fun x => eval (0 :: a) x + (- c) * eval a x)).
    - apply isp_add; [apply isp_list; cbn; lia|]. apply isp_scale. apply isp_list. lia.
    - intros x. rewrite eval_cons, Va. ring.
  Qed.
  Lemma isp_roots n f (xs : list K) : isp n f -> isp (n + length xs) (fun x => f x * fprod (map (fun r => x - r) xs)).
  Proof.
    intros Hf. induction xs as [|r xs IH]; cbn [map length].
    - rewrite Nat.add_0_r. apply (isp_ext n f); [exact Hf|]. intros x. cbn [fprod]. ring.
    - apply (isp_ext _ (fun x => (x - r) * (f x * fprod (map (fun r0 => x - r0) xs)))).
      + rewrite Nat.add_succ_r. apply isp_shift. exact IH.
      + intros x. cbn [fprod]. ring.
  Qed.
  Lemma isp_horner {A} n (h : A -> K -> K) (r : K) : forall l, (forall a, In a l -> isp n (h a)) -> isp n (fun x => eval (map (fun a => h a x) l) r).
  Proof.
    induction l as [|a l IH]; intros H; cbn [map].
    - apply (isp_ext n (fun _ => 0)); [apply isp_zero|]. intros x. rewrite eval_nil. reflexivity.
    - apply (isp_ext n (fun x => h a x + r * eval (map (fun b => h b x) l) r)).
      + apply isp_add; [apply H; left; reflexivity|]. apply isp_scale. apply IH. intros b Hb. apply H. right. exact Hb.
      + intros x. rewrite eval_cons. reflexivity.
  Qed.
  Lemma isp_vanish n f (xs : list K) : isp n f -> NoDup xs -> (n <= length xs)%nat -> (forall x, In x xs -> f x = 0) -> forall x, f x = 0.
  Proof.
    intros (l & L & V) Hn Hl Hz x. rewrite <- V. rewrite (eval_ext K l []); [apply eval_nil|]. intros i. rewrite (coeff_over K []) by (cbn; lia).
    apply (roots_bound K xs); [exact Hn|lia|]. intros y Hy. rewrite V. apply Hz. exact Hy.
  Qed.
  (** A combination by powers of [r] that is zero for enough [r] is a combination of zeros. *)
  Lemma horner_zero (vals S : list K) : NoDup S -> (length vals <= length S)%nat -> (forall r, In r S -> eval vals r = 0) -> forall a, In a vals -> a = 0.
  Proof.
    intros Hn Hl Hz a Ha. destruct (In_nth _ _ 0 Ha) as (i & Hi & <-). exact (roots_bound K S vals Hn Hl Hz i).
  Qed.
  Lemma horner_all_zero (vals : list K) r : (forall a, In a vals -> a = 0) -> eval vals r = 0.
  Proof.
    induction vals as [|a vals IH]; intros H; [apply eval_nil|]. rewrite eval_cons, IH by (intros b Hb; apply H; right; exact Hb). rewrite (H a (or_introl eq_refl)). ring.
  Qed.
  Lemma horner_map_sub {A} (f g : A -> K) r l : eval (map (fun a => f a - g a) l) r = eval (map f l) r - eval (map g l) r.
  Proof. induction l as [|a l IH]; cbn [map]; [rewrite !eval_nil; ring|]. rewrite !eval_cons, IH. ring. Qed.
  Lemma horner_map_scale {A} (f : A -> K) c r l : eval (map (fun a => c * f a) l) r = c * eval (map f l) r.
  Proof. induction l as [|a l IH]; cbn [map]; [rewrite !eval_nil; ring|]. rewrite !eval_cons, IH. ring. Qed.
End Functions.
