(** Proofs: the degree of the constraints, and division by the vanishing polynomial. *)
From Coq Require Import ZArith List Arith Lia Bool Ring Field Field_theory.
From Verif Require Import Field ParallelizeModel PolyModel PolySpec PolyProof PolyProof3 FFTModel FFTSpec DomainSpec DomainProof PcsProof ExprModel ExprSpec GrandProductModel GrandProductSpec LogDerivModel
  VanishingModel VanishingSpec VanishingProof2.
Import ListNotations.

Section Poly.
  Variable K : fld.
  Add Field Kvan5 : (fld_theory K).
  Open Scope fld_scope.

  (** [f] is a polynomial function of degree at most [D]. *)
  Definition polyfun (D : nat) (f : K -> K) : Prop := exists q : list K, (length q <= S D)%nat /\ forall x, f x = eval q x.
  Lemma pf_ext D f g : (forall x, f x = g x) -> polyfun D f -> polyfun D g.
  Proof. intros E (q & L & H). exists q. split; [exact L|]. intros x. rewrite <- E. apply H. Qed.
  Lemma pf_mono D D' f : (D <= D')%nat -> polyfun D f -> polyfun D' f.
  Proof. intros HD (q & L & H). exists q. split; [lia|exact H]. Qed.
  Lemma pf_const D c : polyfun D (fun _ => c).
  Proof. exists [c]. split; [cbn; lia|]. intros x. rewrite eval_cons, eval_nil. ring. Qed.
  Lemma pf_x D : (1 <= D)%nat -> polyfun D (fun x => x).
  Proof. intros HD. exists [0; 1]. split; [cbn; lia|]. intros x. rewrite !eval_cons, eval_nil. ring. Qed.
  Lemma pf_eval D p : (length p <= S D)%nat -> polyfun D (eval p).
  Proof. intros L. exists p. auto. Qed.
  Lemma pf_rotated D p w n r : (length p <= S D)%nat -> polyfun D (fun x => eval p (rotated w n x r)).
  Proof.
    intros L. destruct (scaled_poly K (w ^ Z.to_nat (r mod Z.of_nat n)) p) as (q & Lq & E). exists q. split; [lia|]. intros x. rewrite E. unfold rotated. f_equal. ring.
  Qed.
  Lemma pf_lin D f g s t : polyfun D f -> polyfun D g -> polyfun D (fun x => s * f x + t * g x).
  Proof.
    intros (p & Lp & Ep) (q & Lq & Eq). exists (map (fun i => s * coeff p i + t * coeff q i) (seq 0 (S D))). split; [rewrite map_length, seq_length; lia|].
    intros x. rewrite Ep, Eq. symmetry. apply eval_linear. intros i. rewrite coeff_map_seq. destruct (Nat.ltb_spec i (S D)); [reflexivity|]. rewrite !coeff_over by lia. ring.
  Qed.
  Lemma pf_add D f g : polyfun D f -> polyfun D g -> polyfun D (fun x => f x + g x).
  Proof. intros A B. eapply pf_ext; [|exact (pf_lin D f g 1 1 A B)]. intros x. cbn. ring. Qed.
  Lemma pf_sub D f g : polyfun D f -> polyfun D g -> polyfun D (fun x => f x - g x).
  Proof. intros A B. eapply pf_ext; [|exact (pf_lin D f g 1 (- (1)) A B)]. intros x. cbn. ring. Qed.
  Lemma pf_opp D f : polyfun D f -> polyfun D (fun x => - f x).
  Proof. intros A. eapply pf_ext; [|exact (pf_lin D f f 0 (- (1)) A A)]. intros x. cbn. ring. Qed.
  Lemma pf_scale D f c : polyfun D f -> polyfun D (fun x => f x * c).
  Proof. intros A. eapply pf_ext; [|exact (pf_lin D f f c 0 A A)]. intros x. cbn. ring. Qed.
  Lemma pf_mul D D' f g : polyfun D f -> polyfun D' g -> polyfun (D + D') (fun x => f x * g x).
  Proof.
    intros (p & Lp & Ep) (q & Lq & Eq). exists (map (conv (coeff p) (coeff q)) (seq 0 (S (D + D')))). split; [rewrite map_length, seq_length; lia|].
    intros x. rewrite Ep, Eq. symmetry. apply eval_conv. intros i. rewrite coeff_map_seq. destruct (Nat.ltb_spec i (S (D + D'))); [reflexivity|]. symmetry.
    unfold conv. apply fsum_map_zero. intros j Hj. apply in_seq in Hj. destruct (Nat.ltb_spec j (length p)).
    - rewrite (coeff_over K q) by lia. ring.
    - rewrite (coeff_over K p) by lia. ring.
  Qed.
  Lemma pf_mul' D D' E f g : (D + D' <= E)%nat -> polyfun D f -> polyfun D' g -> polyfun E (fun x => f x * g x).
  Proof. intros HE A B. eapply pf_mono; [exact HE|]. apply pf_mul; assumption. Qed.

  (** ** A list of polynomial functions. *)
  Definition polyfuns (D : nat) (F : K -> list K) : Prop := exists qs : list (list K), Forall (fun q => (length q <= S D)%nat) qs /\ forall x, F x = map (fun q => eval q x) qs.
  Lemma pfs_nil D : polyfuns D (fun _ => []). Proof. exists []. split; [constructor|reflexivity]. Qed.
  Lemma pfs_cons D f F : polyfun D f -> polyfuns D F -> polyfuns D (fun x => f x :: F x).
  Proof. intros (q & L & E) (qs & Ls & Es). exists (q :: qs). split; [constructor; assumption|]. intros x. cbn [map]. rewrite E, Es. reflexivity. Qed.
  Lemma pfs_app D F G : polyfuns D F -> polyfuns D G -> polyfuns D (fun x => F x ++ G x).
  Proof. intros (q & L & E) (qs & Ls & Es). exists (q ++ qs). split; [apply Forall_app; auto|]. intros x. rewrite map_app, E, Es. reflexivity. Qed.
  Lemma pfs_map {A} D (f : A -> K -> K) l : (forall a, In a l -> polyfun D (f a)) -> polyfuns D (fun x => map (fun a => f a x) l).
  Proof. induction l as [|a l IH]; intros H; [apply pfs_nil|]. apply (pfs_cons D (f a)); [apply H; left; reflexivity|]. apply IH. intros b Hb. apply H. right. exact Hb. Qed.
  Lemma pfs_flat_map {A} D (f : A -> K -> list K) l : (forall a, In a l -> polyfuns D (f a)) -> polyfuns D (fun x => flat_map (fun a => f a x) l).
  Proof. induction l as [|a l IH]; intros H; [apply pfs_nil|]. cbn [flat_map]. apply (pfs_app D (f a)); [apply H; left; reflexivity|]. apply IH. intros b Hb. apply H. right. exact Hb. Qed.
  Lemma pfs_ext D F G : (forall x, F x = G x) -> polyfuns D F -> polyfuns D G.
  Proof. intros E (qs & L & H). exists qs. split; [exact L|]. intros x. rewrite <- E. apply H. Qed.
  Lemma pfs_accumulate D F y : polyfuns D F -> polyfun D (fun x => accumulate y 0 (F x)).
  Proof.
    intros (qs & L & E). apply (pf_ext D (fun x => accumulate y 0 (map (fun q => eval q x) qs))); [intros x; rewrite E; reflexivity|]. clear E F.
    assert (H : forall f, polyfun D f -> polyfun D (fun x => accumulate y (f x) (map (fun q => eval q x) qs))).
    { induction qs as [|q qs IH]; intros f Hf; [exact Hf|]. apply Forall_cons_iff in L as [Lq L]. unfold accumulate in *. cbn [map fold_left]. apply (IH L (fun x => f x * y + eval q x)).
      apply pf_add; [apply pf_scale; exact Hf|apply pf_eval; exact Lq]. }
    apply (H (fun _ => 0)). apply pf_const.
  Qed.
  Lemma pfs_nth D F i : polyfuns D F -> polyfun D (fun x => nth i (F x) 0).
  Proof.
    intros (qs & L & E). exists (nth i qs []). split; [|intros x; rewrite E; rewrite <- (eval_nil K x) at 1; apply (map_nth (fun q => eval q x))].
    destruct (Nat.ltb_spec i (length qs)) as [Hi|Hi]; [rewrite Forall_forall in L; apply L, nth_In; exact Hi|rewrite nth_overflow by exact Hi; cbn; lia].
  Qed.

  (** ** The factor theorem for several roots. *)
  Lemma factor : forall (xs l : list K), NoDup xs -> (forall x, In x xs -> eval l x = 0) ->
    exists q, length q = (length l - length xs)%nat /\ forall y, eval l y = fprod (map (fun x => y - x) xs) * eval q y.
  Proof.
    induction xs as [|x xs IH]; intros l HN HR.
    - exists l. split; [cbn; lia|]. intros y. cbn [map fprod]. ring.
    - inversion HN as [|? ? Hx HN']; subst.
      destruct (IH (quot K l x) HN') as (q & Lq & Eq).
      { intros y Hy. pose proof (quot_eval K l x y) as Q. rewrite (HR x), (HR y) in Q by (cbn; auto).
        assert (Hxy : y - x <> 0). { intros E. apply (proj1 (fsub_eq0 K y x)) in E. rewrite E in Hy. exact (Hx Hy). }
        apply (fmul_cancel_l K (y - x)); [exact Hxy|]. rewrite <- Q. ring. }
      exists q. split; [rewrite Lq, quot_length; cbn [length]; lia|]. intros y. cbn [map fprod]. pose proof (quot_eval K l x y) as Q. rewrite (HR x) in Q by (left; reflexivity).
      transitivity ((y - x) * eval (quot K l x) y); [rewrite <- Q; ring|]. rewrite Eq. ring.
  Qed.
  Lemma same_function (a b : list K) xs : NoDup xs -> (length a <= length xs)%nat -> (length b <= length xs)%nat -> (forall x, In x xs -> eval a x = eval b x) -> forall x, eval a x = eval b x.
  Proof.
    intros HN La Lb H x. set (m := length xs) in *. set (q := map (fun i => 1 * coeff a i + (- (1)) * coeff b i) (seq 0 m)).
    assert (E : forall y, eval q y = 1 * eval a y + (- (1)) * eval b y).
    { intros y. apply eval_linear. intros i. unfold q. rewrite coeff_map_seq. destruct (Nat.ltb_spec i m); [reflexivity|]. rewrite !coeff_over by lia. ring. }
    assert (Z : forall i, coeff q i = 0). { apply (roots_bound K xs); [exact HN|unfold q; rewrite map_length, seq_length; fold m; lia|]. intros y Hy. rewrite E, (H y Hy). ring. }
    assert (Eq : eval q x = 0). { rewrite (eval_ext K q []); [apply eval_nil|]. intros i. rewrite Z. destruct i; reflexivity. }
    rewrite E in Eq. apply (proj1 (fsub_eq0 K _ _)). rewrite <- Eq. ring.
  Qed.

  (** ** The degree of the constraints. *)
  Variables (w : K) (n bf : nat).
  Hypothesis Hn : (2 <= n)%nat.
  Notation N := (n - 1)%nat.
  Notation short p := (length p <= n)%nat.
  Lemma pf_short p r : short p -> polyfun N (fun x => eval p (rotated w n x r)).
  Proof. intros L. apply pf_rotated. lia. Qed.
  Lemma pf_column (cols : list (list K)) c r : Forall (fun p => short p) cols -> polyfun N (fun x => eval (nth c cols []) (rotated w n x r)).
  Proof.
    intros HF. apply pf_short. destruct (Nat.ltb_spec c (length cols)) as [Hc|Hc]; [rewrite Forall_forall in HF; apply HF, nth_In; exact Hc|rewrite nth_overflow by exact Hc; cbn; lia].
  Qed.
  Lemma pf_value t (e : expr K) : Forall (fun p => short p) (t_fixed t) -> Forall (fun p => short p) (t_advice t) -> Forall (fun p => short p) (t_instance t) ->
    polyfun (degree e * N) (fun x => value (leaves_at w n t x) e).
  Proof.
    intros F1 F2 F3. induction e; cbn [degree value leaves_at v_fixed v_advice v_instance v_challenge v_selector].
    - apply pf_const.
    - apply pf_const.
    - rewrite Nat.mul_1_l. apply pf_column. exact F1.
    - rewrite Nat.mul_1_l. apply pf_column. exact F2.
    - rewrite Nat.mul_1_l. apply pf_column. exact F3.
    - apply pf_const.
    - apply pf_opp. exact IHe.
    - apply pf_add; [eapply pf_mono; [|exact IHe1]|eapply pf_mono; [|exact IHe2]]; apply Nat.mul_le_mono_r; lia.
    - rewrite Nat.mul_add_distr_r. apply pf_mul; assumption.
    - apply pf_scale. exact IHe.
  Qed.
  Lemma fold_max_le {A} (f : A -> nat) l a x : In x l -> (f x <= fold_left (fun d e => Nat.max d (f e)) l a)%nat.
  Proof.
    revert a. induction l as [|y l IH]; intros a []; cbn [fold_left].
    - subst y. assert (H : forall l a, (a <= fold_left (fun d e => Nat.max d (f e)) l a)%nat). { clear. induction l as [|y l IH]; intros a; [reflexivity|]. cbn [fold_left]. etransitivity; [|apply IH]. lia. }
      etransitivity; [|apply H]. lia.
    - apply IH. assumption.
  Qed.
  Lemma pf_compress t (es : list (expr K)) theta : Forall (fun p => short p) (t_fixed t) -> Forall (fun p => short p) (t_advice t) -> Forall (fun p => short p) (t_instance t) ->
    polyfun (max_degree es * N) (fun x => compress_verifier theta (map (value (leaves_at w n t x)) es)).
  Proof.
    intros F1 F2 F3. unfold compress_verifier. set (D := (max_degree es * N)%nat).
    assert (H : forall es', incl es' es -> forall f, polyfun D f -> polyfun D (fun x => fold_left (fun acc v => acc * theta + v) (map (value (leaves_at w n t x)) es') (f x))).
    { induction es' as [|e es' IH]; intros HI f Hf; [exact Hf|]. cbn [map fold_left]. apply (IH ltac:(intros a Ha; apply HI; right; exact Ha) (fun x => f x * theta + value (leaves_at w n t x) e)).
      apply pf_add; [apply pf_scale; exact Hf|]. eapply pf_mono; [|apply pf_value; assumption]. unfold D. apply Nat.mul_le_mono_r. apply (fold_max_le degree). apply HI. left. reflexivity. }
    apply (H es (incl_refl es) (fun _ => 0)). apply pf_const.
  Qed.

  Variable sys : constraint_system K.
  Variable ch : challenges K.
  Variable delta : K.
  Notation deg := (compute_degree sys).
  Notation D := (deg * N)%nat.
  Lemma deg3 : (3 <= deg)%nat. Proof. unfold compute_degree. lia. Qed.
  Lemma deg_gate e : In e (sys_gates sys) -> (degree e <= deg)%nat.
  Proof. intros H. pose proof (fold_max_le degree (sys_gates sys) 0%nat e H). unfold compute_degree. lia. Qed.
  Lemma deg_lookup l : In l (sys_lookups sys) -> (lookup_required l <= deg)%nat.
  Proof. intros H. pose proof (fold_max_le lookup_required (sys_lookups sys) 1%nat l H). unfold compute_degree. lia. Qed.
  Lemma le_D a b : (a <= b)%nat -> (b <= deg)%nat -> (a * N <= D)%nat.
  Proof. intros A B. apply Nat.mul_le_mono_r. lia. Qed.
  Lemma pf_D a f : (a <= deg)%nat -> polyfun (a * N) f -> polyfun D f.
  Proof. intros A. apply pf_mono. apply Nat.mul_le_mono_r. exact A. Qed.
  Lemma pf_mulN a b f g : polyfun (a * N) f -> polyfun (b * N) g -> polyfun ((a + b) * N) (fun x => f x * g x).
  Proof. intros A B. rewrite Nat.mul_add_distr_r. apply pf_mul; assumption. Qed.
  Lemma pf_upN a b f : (a <= b)%nat -> polyfun (a * N) f -> polyfun (b * N) f.
  Proof. intros A. apply pf_mono. apply Nat.mul_le_mono_r. exact A. Qed.
  Lemma pf_1 f : polyfun N f -> polyfun (1 * N) f. Proof. rewrite Nat.mul_1_l. auto. Qed.

  (** One chunk of the permutation. *)
  Lemma pf_fold_left {A} (fv fs : A -> K -> K) (beta gamma : K) (l : list A) : (forall a, In a l -> polyfun (1 * N) (fv a) /\ polyfun (1 * N) (fs a)) ->
    forall a f, polyfun (a * N) f -> polyfun ((a + length l) * N) (fun x => fold_left (fun acc p => acc * (fv p x + beta * fs p x + gamma)) l (f x)).
  Proof.
    induction l as [|p l IH]; intros H a f Hf; cbn [fold_left length]; [rewrite Nat.add_0_r; exact Hf|].
    replace (a + S (length l))%nat with ((a + 1) + length l)%nat by lia. apply (IH ltac:(intros q Hq; apply H; right; exact Hq) _ (fun x => f x * (fv p x + beta * fs p x + gamma))).
    destruct (H p (or_introl eq_refl)) as [A1 A2]. apply pf_mulN; [exact Hf|]. apply pf_add; [apply pf_add; [exact A1|]|apply pf_const]. eapply pf_ext; [|exact (pf_scale _ _ beta A2)]. intros x. cbn. ring.
  Qed.
  Lemma pf_fold_right {A} (fv : A -> K -> K) (gamma dl : K) (l : list A) : (forall a, In a l -> polyfun (1 * N) (fv a)) ->
    forall a f d, polyfun (a * N) f -> polyfun (1 * N) d ->
    polyfun ((a + length l) * N) (fun x => fst (fold_left (fun (st : K * K) p => let (acc, dd) := st in (acc * (fv p x + dd + gamma), dd * dl)) l (f x, d x))).
  Proof.
    induction l as [|p l IH]; intros H a f d Hf Hd; cbn [fold_left length]; [rewrite Nat.add_0_r; exact Hf|].
    replace (a + S (length l))%nat with ((a + 1) + length l)%nat by lia.
    apply (IH ltac:(intros q Hq; apply H; right; exact Hq) _ (fun x => f x * (fv p x + d x + gamma)) (fun x => d x * dl)); [|apply pf_scale; exact Hd].
    apply pf_mulN; [exact Hf|]. apply pf_add; [apply pf_add; [apply H; left; reflexivity|exact Hd]|apply pf_const].
  Qed.
  Lemma combine_map2 {A B C E} (f : A -> C) (g : B -> E) : forall l1 l2, combine (map f l1) (map g l2) = map (fun p => (f (fst p), g (snd p))) (combine l1 l2).
  Proof. induction l1 as [|a l1 IH]; intros [|b l2]; [reflexivity|reflexivity|reflexivity|]. cbn [map combine fst snd]. f_equal. apply IH. Qed.
  Lemma fold_left_map {A B C} (f : C -> B -> C) (g : A -> B) l : forall c, fold_left f (map g l) c = fold_left (fun c a => f c (g a)) l c.
  Proof. induction l as [|a l IH]; intros c; [reflexivity|]. cbn [map fold_left]. apply IH. Qed.
  Lemma chunk_of_map {A} (f : A -> K) (l : list A) len i : chunk_of (map f l) len i = map f (firstn len (skipn (i * len) l)).
  Proof. unfold chunk_of. rewrite skipn_map, firstn_map. reflexivity. Qed.
  Lemma pf_chunk {A B} (fv : A -> K -> K) (fs : B -> K -> K) (cols : list A) (sigmas : list B) z z_next len i :
    (forall a, In a cols -> polyfun (1 * N) (fv a)) -> (forall a, In a sigmas -> polyfun (1 * N) (fs a)) -> polyfun (1 * N) z -> polyfun (1 * N) z_next ->
    polyfun ((1 + len) * N) (fun x => chunk_expression delta x (ch_beta ch) (ch_gamma ch) len i (z x) (z_next x) (chunk_of (map (fun a => fv a x) cols) len i) (chunk_of (map (fun b => fs b x) sigmas) len i)).
  Proof.
    intros Hv Hs Hz Hx. set (cs := firstn len (skipn (i * len) cols)). set (ss := firstn len (skipn (i * len) sigmas)).
    assert (Ic : incl cs cols) by (intros a Ha; rewrite <- (firstn_skipn (i * len) cols); apply in_or_app; right; rewrite <- (firstn_skipn len (skipn (i * len) cols)); apply in_or_app; left; exact Ha).
    assert (Is : incl ss sigmas) by (intros a Ha; rewrite <- (firstn_skipn (i * len) sigmas); apply in_or_app; right; rewrite <- (firstn_skipn len (skipn (i * len) sigmas)); apply in_or_app; left; exact Ha).
    assert (Lc : (length cs <= len)%nat) by (unfold cs; rewrite firstn_length; lia).
    apply (pf_ext _ (fun x => fold_left (fun acc p => acc * (fv (fst p) x + ch_beta ch * fs (snd p) x + ch_gamma ch)) (combine cs ss) (z_next x) -
        fst (fold_left (fun (st : K * K) p => let (acc, dd) := st in (acc * (fv p x + dd + ch_gamma ch), dd * delta)) cs (z x, ch_beta ch * x * delta ^ (i * len))))).
    { intros x. unfold chunk_expression. rewrite !chunk_of_map. fold cs ss. rewrite combine_map2, !fold_left_map. cbn [fst snd]. destruct (fold_left _ cs _) as [rhs ?]. reflexivity. }
    apply pf_sub.
    - eapply pf_upN; [|apply (pf_fold_left (fun p => fv (fst p)) (fun p => fs (snd p)) (ch_beta ch) (ch_gamma ch) (combine cs ss) ltac:(intros [a b] Hab; split; cbn [fst snd]; [apply Hv, Ic; eapply in_combine_l; exact Hab|apply Hs, Is; eapply in_combine_r; exact Hab]) 1 z_next Hx)].
      rewrite combine_length. lia.
    - eapply pf_upN; [|apply (pf_fold_right fv (ch_gamma ch) delta cs ltac:(intros a Ha; apply Hv, Ic, Ha) 1 z (fun x => ch_beta ch * x * delta ^ (i * len)) Hz)]; [lia|].
      apply pf_scale. eapply pf_ext; [|exact (pf_scale _ _ (ch_beta ch) (pf_x (1 * N) ltac:(lia)))]. intros x. cbn. ring.
  Qed.

  Variables (first last blind : K -> K).
  Hypothesis Hfirst : polyfun N first.
  Hypothesis Hlast : polyfun N last.
  Hypothesis Hblind : polyfun N blind.
  Variable sigmas : list (list K).
  Hypothesis Hsigmas : Forall (fun p => short p) sigmas.
  Variable wit : witness K.
  Hypothesis F1 : Forall (fun p => short p) (t_fixed (wit_table wit)).
  Hypothesis F2 : Forall (fun p => short p) (t_advice (wit_table wit)).
  Hypothesis F3 : Forall (fun p => short p) (t_instance (wit_table wit)).
  Hypothesis F4 : Forall (fun p => short p) (wit_products wit).
  Hypothesis F5 : Forall (fun l : list K * list K * list K => short (fst (fst l)) /\ short (snd (fst l)) /\ short (snd l)) (wit_lookups wit).

  Lemma pf_active : polyfun (1 * N) (fun x => 1 - (last x + blind x)).
  Proof. apply pf_1. apply pf_sub; [apply pf_const|]. apply pf_add; assumption. Qed.
  Lemma pf_any c : polyfun (1 * N) (fun x => any_eval (leaves_at w n (wit_table wit) x) c).
  Proof. apply pf_1. destruct c; cbn [any_eval leaves_at v_fixed v_advice v_instance]; apply pf_column; assumption. Qed.
  Lemma pf_lookup l p : In l (sys_lookups sys) -> In p (wit_lookups wit) -> polyfuns D (fun x => let '(z, a, s) := p in
      lookup_verifier_evals (first x) (last x) (blind x) (ch_beta ch) (ch_gamma ch) (eval z x) (eval z (rotated w n x 1)) (eval a x) (eval a (rotated w n x (-1))) (eval s x)
        (compress_verifier (ch_theta ch) (map (value (leaves_at w n (wit_table wit) x)) (fst l))) (compress_verifier (ch_theta ch) (map (value (leaves_at w n (wit_table wit) x)) (snd l)))).
  Proof.
    intros Hl Hp. rewrite Forall_forall in F5. destruct (F5 p Hp) as (Lz & La & Ls). destruct p as [[z a] s]. cbn [fst snd] in *. unfold lookup_verifier_evals. cbv zeta.
    pose proof deg3 as H3. pose proof (deg_lookup l Hl) as HL. unfold lookup_required in HL.
    assert (Pz : polyfun (1 * N) (eval z)) by (apply pf_1, pf_eval; lia). assert (Pa : polyfun (1 * N) (eval a)) by (apply pf_1, pf_eval; lia). assert (Ps : polyfun (1 * N) (eval s)) by (apply pf_1, pf_eval; lia).
    pose proof (pf_1 _ (pf_short z 1 Lz)) as Pzn. pose proof (pf_1 _ (pf_short a (-1) La)) as Pan. pose proof (pf_1 _ Hfirst) as Pf. pose proof (pf_1 _ Hlast) as Pl. pose proof pf_active as Pact.
    pose proof (pf_compress (wit_table wit) (fst l) (ch_theta ch) F1 F2 F3) as Pi. pose proof (pf_compress (wit_table wit) (snd l) (ch_theta ch) F1 F2 F3) as Pt.
    apply pfs_cons; [|apply pfs_cons; [|apply pfs_cons; [|apply pfs_cons; [|apply pfs_cons; [|apply pfs_nil]]]]].
    - apply (pf_D (1 + 1)); [lia|]. apply pf_mulN; [exact Pf|]. apply pf_sub; [apply pf_const|exact Pz].
    - apply (pf_D (1 + (1 + 1))); [lia|]. apply pf_mulN; [exact Pl|]. apply pf_sub; [apply pf_mulN; exact Pz|]. apply (pf_upN 1); [lia|exact Pz].
    - apply (pf_D (1 + Nat.max (1 + 1 + 1) (1 + max_degree (fst l) + max_degree (snd l)))); [lia|]. apply pf_mulN; [exact Pact|]. apply pf_sub.
      + apply (pf_upN (1 + 1 + 1)); [lia|]. apply pf_mulN; [apply pf_mulN; [exact Pzn|]|]; (apply pf_add; [assumption|apply pf_const]).
      + apply (pf_upN (1 + max_degree (fst l) + max_degree (snd l))); [lia|]. apply pf_mulN; [apply pf_mulN; [exact Pz|]|]; (apply pf_add; [assumption|apply pf_const]).
    - apply (pf_D (1 + 1)); [lia|]. apply pf_mulN; [exact Pf|]. apply pf_sub; assumption.
    - apply (pf_D (1 + 1 + 1)); [lia|]. apply pf_mulN; [apply pf_mulN; [exact Pact|]|]; apply pf_sub; assumption.
  Qed.
  Lemma pf_at r : polyfuns N (fun x => map (fun p => eval p (rotated w n x r)) (wit_products wit)).
  Proof. apply pfs_map. intros p Hp. apply pf_short. rewrite Forall_forall in F4. exact (F4 p Hp). Qed.
  Lemma pf_last_of N' (F : K -> list K) : polyfuns N' F -> polyfun N' (fun x => List.last (F x) 0).
  Proof.
    intros (qs & L & E). exists (List.last qs []). split.
    - destruct qs as [|q qs] using rev_ind; [cbn; lia|]. rewrite last_last. apply Forall_app in L as [_ L]. apply Forall_cons_iff in L as [L _]. exact L.
    - intros x. rewrite E. destruct qs as [|q qs] using rev_ind; [reflexivity|]. rewrite map_app. cbn [map]. rewrite !last_last. reflexivity.
  Qed.
  Lemma pf_permutation : polyfuns D (fun x => permutation_verifier_evals (first x) (last x) (blind x) delta x (ch_beta ch) (ch_gamma ch) (permutation_chunk_len sys)
      (map (fun p => eval p (rotated w n x 0)) (wit_products wit)) (map (fun p => eval p (rotated w n x 1)) (wit_products wit)) (map (fun p => eval p (rotated w n x (- Z.of_nat (bf + 1)))) (wit_products wit))
      (map (any_eval (leaves_at w n (wit_table wit) x)) (sys_columns sys)) (map (fun p => eval p (rotated w n x 0)) sigmas)).
  Proof.
    pose proof deg3 as H3. pose proof (pf_1 _ Hfirst) as Pf. pose proof (pf_1 _ Hlast) as Pl. pose proof pf_active as Pact.
    pose proof (pf_at 0) as P0. pose proof (pf_at 1) as P1. pose proof (pf_at (- Z.of_nat (bf + 1))) as P2.
    assert (Ecell : forall r i, polyfun (1 * N) (fun x => cell (map (fun p => eval p (rotated w n x r)) (wit_products wit)) i)) by (intros r i; apply pf_1; apply (pfs_nth N _ i (pf_at r))).
    unfold permutation_verifier_evals. pose proof (pf_last_of N _ P0) as PL. destruct (wit_products wit) as [|p0 pr] eqn:Ep; [apply pfs_nil|].
    set (zs := fun x => map (fun p => eval p (rotated w n x 0)) (p0 :: pr)) in *.
    apply (pfs_ext D (fun x => [first x * (1 - eval p0 (rotated w n x 0)); last x * (List.last (zs x) 0 * List.last (zs x) 0 - List.last (zs x) 0)] ++
      (map (fun p : K * K => first x * (fst p - snd p)) (combine (map (fun p => eval p (rotated w n x 0)) pr) (map (fun p => eval p (rotated w n x (- Z.of_nat (bf + 1)))) (p0 :: pr))) ++
       map (fun i => (1 - (last x + blind x)) * chunk_expression delta x (ch_beta ch) (ch_gamma ch) (permutation_chunk_len sys) i
            (cell (zs x) i) (cell (map (fun p => eval p (rotated w n x 1)) (p0 :: pr)) i)
            (chunk_of (map (any_eval (leaves_at w n (wit_table wit) x)) (sys_columns sys)) (permutation_chunk_len sys) i) (chunk_of (map (fun p => eval p (rotated w n x 0)) sigmas) (permutation_chunk_len sys) i))
            (seq 0 (Nat.div (length (map (any_eval (leaves_at w n (wit_table wit) x)) (sys_columns sys)) + permutation_chunk_len sys - 1) (permutation_chunk_len sys)))))).
    { intros x. reflexivity. }
    apply pfs_app.
    - apply pfs_cons; [|apply pfs_cons; [|apply pfs_nil]].
      + apply (pf_D (1 + 1)); [lia|]. apply pf_mulN; [exact Pf|]. apply pf_sub; [apply pf_const|]. apply pf_1, pf_short. rewrite Forall_forall in F4. apply F4. left. reflexivity.
      + pose proof (pf_1 _ PL) as PL'. apply (pf_D (1 + (1 + 1))); [lia|]. apply pf_mulN; [exact Pl|]. apply pf_sub; [exact (pf_mulN 1 1 _ _ PL' PL')|]. apply (pf_upN 1); [lia|exact PL'].
    - apply (pfs_app D).
      + apply (pfs_ext D (fun x => map (fun q => first x * (eval (fst q) (rotated w n x 0) - eval (snd q) (rotated w n x (- Z.of_nat (bf + 1))))) (combine pr (p0 :: pr)))).
        { intros x. rewrite combine_map2, map_map. reflexivity. }
        apply (pfs_map D (fun q x => first x * (eval (fst q) (rotated w n x 0) - eval (snd q) (rotated w n x (- Z.of_nat (bf + 1)))))). intros [a b] Hab. cbn [fst snd].
        apply (pf_D (1 + 1)); [lia|]. apply pf_mulN; [exact Pf|]. rewrite Forall_forall in F4. apply pf_sub; apply pf_1, pf_short, F4; [right; eapply in_combine_l; exact Hab|eapply in_combine_r; exact Hab].
      + assert (EL : forall x, length (map (any_eval (leaves_at w n (wit_table wit) x)) (sys_columns sys)) = length (sys_columns sys)) by (intros x; apply map_length).
        apply (pfs_ext D (fun x => map (fun i => (1 - (last x + blind x)) * chunk_expression delta x (ch_beta ch) (ch_gamma ch) (permutation_chunk_len sys) i
            (cell (map (fun p => eval p (rotated w n x 0)) (p0 :: pr)) i) (cell (map (fun p => eval p (rotated w n x 1)) (p0 :: pr)) i)
            (chunk_of (map (fun c => any_eval (leaves_at w n (wit_table wit) x) c) (sys_columns sys)) (permutation_chunk_len sys) i) (chunk_of (map (fun p => eval p (rotated w n x 0)) sigmas) (permutation_chunk_len sys) i))
            (seq 0 (Nat.div (length (sys_columns sys) + permutation_chunk_len sys - 1) (permutation_chunk_len sys))))).
        { intros x. rewrite EL. reflexivity. }
        apply (pfs_map D (fun i x => _)). intros i _. apply (pf_D (1 + (1 + permutation_chunk_len sys))); [unfold permutation_chunk_len; lia|]. apply pf_mulN; [exact Pact|].
        apply (pf_chunk (fun c x => any_eval (leaves_at w n (wit_table wit) x) c) (fun p x => eval p (rotated w n x 0)) (sys_columns sys) sigmas
                 (fun x => cell (map (fun p => eval p (rotated w n x 0)) (p0 :: pr)) i) (fun x => cell (map (fun p => eval p (rotated w n x 1)) (p0 :: pr)) i)).
        * intros c _. apply pf_any.
        * intros p Hp. apply pf_1, pf_short. rewrite Forall_forall in Hsigmas. exact (Hsigmas p Hp).
        * apply Ecell.
        * apply Ecell.
  Qed.
  Theorem constraints_degree : polyfuns D (fun x => circuit_evals sys ch delta (first x) (last x) (blind x) x (evaluations_at w n bf sigmas wit x)).
  Proof.
    unfold circuit_evals. apply pfs_app; [|apply pfs_app].
    - apply (pfs_map D (fun e x => value (leaves_at w n (wit_table wit) x) e)). intros e He. apply (pf_D (degree e)); [apply deg_gate; exact He|]. apply pf_value; assumption.
    - apply pf_permutation.
    - cbn [evaluations_at ev_lookups ev_leaves].
      apply (pfs_ext D (fun x => flat_map (fun q : (list (expr K) * list (expr K)) * (list K * list K * list K) => let '(z, a, s) := snd q in
        lookup_verifier_evals (first x) (last x) (blind x) (ch_beta ch) (ch_gamma ch) (eval z x) (eval z (rotated w n x 1)) (eval a x) (eval a (rotated w n x (-1))) (eval s x)
        (compress_verifier (ch_theta ch) (map (value (leaves_at w n (wit_table wit) x)) (fst (fst q)))) (compress_verifier (ch_theta ch) (map (value (leaves_at w n (wit_table wit) x)) (snd (fst q)))))
        (combine (sys_lookups sys) (wit_lookups wit)))).
      { intros x. generalize (sys_lookups sys). generalize (wit_lookups wit). induction l as [|[[z a] s] ps IH]; intros [|[inp tb] ls]; [reflexivity|reflexivity|reflexivity|]. cbn [map combine flat_map fst snd]. f_equal. apply IH. }
      apply (pfs_flat_map D (fun q x => _)). intros [l p] Hq. cbn [fst snd]. apply (pf_lookup l p); [eapply in_combine_l; exact Hq|eapply in_combine_r; exact Hq].
  Qed.
End Poly.
