(** Soundness of the two grand product arguments on the domain, counted over the challenges. *)
From Coq Require Import ZArith List Arith Bool Lia Permutation Relations ListDec Ring Field Field_theory.
From Verif Require Import Field PolySpec PolyProof PolyProof2 PolyProof3 FFTSpec CycleModel CycleSpec CycleProof CycleExtra CycleLabelModel CycleLabel LookupModel GrandProductModel GrandProductSpec GrandProductProof GrandProductExtra GrandProductPerm.
Import ListNotations.
Open Scope nat_scope.

(** ** Counting pairs by their first component. *)
Section Count.
  Context {A : Type}.
  Variable dec : forall x y : A, {x = y} + {x <> y}.
  Definition eqd (x y : A) : bool := if dec x y then true else false.
  Lemma eqd_true : forall x y, eqd x y = true <-> x = y.
  Proof. intros x y. unfold eqd. destruct (dec x y); split; congruence. Qed.
  Definition fiber (P : list (A * A)) (a : A) : list A := map snd (filter (fun p => eqd (fst p) a) P).
  Lemma fiber_in : forall P a g, In g (fiber P a) <-> In (a, g) P.
  Proof.
    intros P a g. unfold fiber. rewrite in_map_iff. split.
    - intros ([x y] & <- & H). apply filter_In in H. destruct H as [H E]. apply eqd_true in E. cbn [fst snd] in *. now subst x.
    - intros H. exists (a, g). split; [reflexivity|]. apply filter_In. split; [exact H|]. now apply eqd_true.
  Qed.
  Lemma fiber_nodup : forall P a, NoDup P -> NoDup (fiber P a).
  Proof.
    intros P a H. unfold fiber. apply NoDup_map_in; [|now apply NoDup_filter]. intros [x y] [x' y'] H1 H2 E. apply filter_In in H1, H2. destruct H1 as [_ H1], H2 as [_ H2]. apply eqd_true in H1, H2. cbn [fst snd] in *. congruence.
  Qed.
  Lemma fibers_total : forall X P, NoDup X -> (forall p, In p P -> In (fst p) X) -> length P = list_sum (map (fun a => length (fiber P a)) X).
  Proof.
    induction X as [|x X IH]; intros P HX H.
    - destruct P as [|p P]; [reflexivity|]. exfalso. apply (H p). now left.
    - inversion HX as [|? ? Hx HX']; subst. cbn [map list_sum fold_right]. change (fold_right Nat.add 0 ?l) with (list_sum l).
      set (P' := filter (fun p => negb (eqd (fst p) x)) P).
      assert (E : length P = length (fiber P x) + length P').
      { unfold fiber, P'. rewrite map_length. clear. induction P as [|p P IH]; [reflexivity|]. cbn [filter]. destruct (eqd (fst p) x); cbn [negb length]; lia. }
      rewrite E. f_equal. rewrite (IH P' HX').
      + f_equal. apply map_ext_in. intros a Ha. f_equal. unfold fiber. f_equal. unfold P'. assert (Hax : a <> x) by (intros ->; contradiction). clear - Hax. induction P as [|p P IH]; [reflexivity|]. cbn [filter].
        destruct (eqd (fst p) x) eqn:E1; cbn [negb filter].
        * apply eqd_true in E1. destruct (eqd (fst p) a) eqn:E2; [apply eqd_true in E2; congruence|exact IH].
        * destruct (eqd (fst p) a); [now rewrite IH|exact IH].
      + intros p Hp. unfold P' in Hp. apply filter_In in Hp. destruct Hp as [Hp Hn]. destruct (H p Hp) as [E'|E']; [|exact E']. exfalso. rewrite <- E' in Hn. assert (T : eqd x x = true) by (now apply eqd_true). rewrite T in Hn. discriminate.
  Qed.
  Definition rich (X : list A) (P : list (A * A)) (t : nat) : list A := filter (fun a => t <? length (fiber P a)) X.
  Lemma rich_bound : forall X P t, NoDup X -> NoDup P -> (forall p, In p P -> In (fst p) X /\ In (snd p) X) -> length P <= length (rich X P t) * length X + length X * t.
  Proof.
    intros X P t HX HP H. rewrite (fibers_total X P HX) by (intros p Hp; now apply H).
    assert (F : forall a, length (fiber P a) <= length X).
    { intros a. apply NoDup_incl_length; [now apply fiber_nodup|]. intros g Hg. apply fiber_in in Hg. now apply (H (a, g)). }
    set (q := length X) in *. assert (G : forall Y, list_sum (map (fun a => length (fiber P a)) Y) <= length (rich Y P t) * q + length Y * t).
    { induction Y as [|y Y IH]; [cbn; lia|]. cbn [map list_sum fold_right length]. change (fold_right Nat.add 0 ?l) with (list_sum l). unfold rich in *. cbn [filter]. specialize (F y).
      destruct (Nat.ltb_spec t (length (fiber P y))); cbn [length]; nia. }
    apply G.
  Qed.
  Lemma rich_in : forall X P t a, In a (rich X P t) <-> In a X /\ t < length (fiber P a).
  Proof. intros X P t a. unfold rich. rewrite filter_In, Nat.ltb_lt. reflexivity. Qed.
  (** Leaving out the elements of a short list. *)
  Definition without (l bad : list A) : list A := filter (fun x => if in_dec dec x bad then false else true) l.
  Lemma without_in : forall l bad x, In x (without l bad) <-> In x l /\ ~ In x bad.
  Proof. intros l bad x. unfold without. rewrite filter_In. destruct (in_dec dec x bad); split; intros [? ?]; split; auto; try discriminate; contradiction. Qed.
  Lemma without_length : forall l bad, NoDup l -> length l <= length (without l bad) + length bad.
  Proof.
    intros l bad H. set (hit := filter (fun x => if in_dec dec x bad then true else false) l).
    assert (L : length l = length (without l bad) + length hit).
    { unfold without, hit. clear. induction l as [|x l IH]; [reflexivity|]. cbn [filter]. destruct (in_dec dec x bad); cbn [length]; lia. }
    assert (Lh : length hit <= length bad). { apply NoDup_incl_length; [now apply NoDup_filter|]. intros x Hx. apply filter_In in Hx. destruct (in_dec dec x bad); [assumption|now destruct Hx]. }
    lia.
  Qed.
  Lemma outside : forall l bad : list A, NoDup l -> length bad < length l -> exists x, In x l /\ ~ In x bad.
  Proof.
    intros l bad H L. pose proof (without_length l bad H) as B. destruct (without l bad) as [|x r] eqn:E; [cbn in B; lia|]. exists x. apply without_in. rewrite E. now left.
  Qed.
End Count.

Lemma not_NoDup' : forall {C} (dec : forall x y : C, {x = y} + {x <> y}) (l : list C), ~ NoDup l -> exists c l1 l2 l3, l = l1 ++ c :: l2 ++ c :: l3.
Proof.
  intros C dec l. induction l as [|x l IH]; intros H; [exfalso; apply H; constructor|].
  destruct (in_dec dec x l) as [Hx|Hx].
  - apply in_split in Hx. destruct Hx as (p & q & ->). exists x, [], p, q. reflexivity.
  - destruct IH as (c & l1 & l2 & l3 & ->); [intros N; apply H; now constructor|]. exists c, (x :: l1), l2, l3. reflexivity.
Qed.
Lemma pigeon : forall {A C} (R : A -> C -> Prop) (dec : forall x y : C, {x = y} + {x <> y}) (Bs : list A) (Cs : list C), NoDup Bs -> length Cs < length Bs ->
  (forall b, In b Bs -> exists c, In c Cs /\ R b c) -> exists b b' c, b <> b' /\ In c Cs /\ R b c /\ R b' c.
Proof.
  intros A C R dec Bs Cs HN HL H.
  assert (W : exists cs, length cs = length Bs /\ incl cs Cs /\ forall i b c, nth_error Bs i = Some b -> nth_error cs i = Some c -> R b c).
  { clear HN HL. induction Bs as [|b Bs IH]; [exists []; repeat split; [intros x []|intros [|i] ? ? E; discriminate]|].
    destruct IH as (cs & L & I & Q); [intros x Hx; apply H; now right|]. destruct (H b (or_introl eq_refl)) as (c & Hc & Rc). exists (c :: cs). split; [cbn; now rewrite L|]. split.
    - intros x [<-|Hx]; [exact Hc|now apply I].
    - intros [|i] b' c' E1 E2; cbn [nth_error] in *; [injection E1 as <-; injection E2 as <-; exact Rc|now apply (Q i)]. }
  destruct W as (cs & L & I & Q). assert (ND : ~ NoDup cs) by (intros ND; apply NoDup_incl_length in I; [lia|exact ND]).
  destruct (not_NoDup' dec cs ND) as (c & l1 & l2 & l3 & E).
  assert (E1 : nth_error cs (length l1) = Some c) by (rewrite E, nth_error_app2, Nat.sub_diag by lia; reflexivity).
  assert (E2 : nth_error cs (length l1 + S (length l2)) = Some c).
  { rewrite E, nth_error_app2 by lia. replace (length l1 + S (length l2) - length l1) with (S (length l2)) by lia. cbn [nth_error]. rewrite nth_error_app2, Nat.sub_diag by lia. reflexivity. }
  destruct (nth_error Bs (length l1)) as [b|] eqn:B1; [|apply nth_error_None in B1; assert (length l1 < length cs) by (apply nth_error_Some; congruence); lia].
  destruct (nth_error Bs (length l1 + S (length l2))) as [b'|] eqn:B2; [|apply nth_error_None in B2; assert (length l1 + S (length l2) < length cs) by (apply nth_error_Some; congruence); lia].
  exists b, b', c. split; [|split; [|split]].
  - intros <-. assert (Hij : length l1 = length l1 + S (length l2)); [|lia]. apply (proj1 (NoDup_nth_error Bs) HN); [apply nth_error_Some; congruence|congruence].
  - apply I. eapply nth_error_In. exact E1.
  - now apply (Q (length l1)).
  - now apply (Q (length l1 + S (length l2))).
Qed.

Section Sound.
  Variable K : fld.
  Add Field Kgpq : (fld_theory K).
  Open Scope fld_scope.

  Lemma fdec : forall x y : K, {x = y} + {x <> y}.
  Proof. intros x y. destruct (feqb_spec' K x y); [now left|now right]. Qed.

  (** ** Products of (x + b) determine the x up to order. *)
  Definition shifted (l : list K) (b : K) : K := fprod (map (fun x => x + b) l).
  Fixpoint lp (c : K) (l : list K) : list K :=
    match l with [] => [c] | x :: r => let q := lp c r in map (fun i => x * coeff q i + coeff (0 :: q) i) (seq 0 (S (length q))) end.
  Lemma lp_length : forall c l, length (lp c l) = S (length l).
  Proof. intros c l. induction l as [|x l IH]; [reflexivity|]. cbn [lp]. rewrite map_length, seq_length. cbn [length]. now rewrite IH. Qed.
  Lemma lp_eval : forall c l b, eval (lp c l) b = c * shifted l b.
  Proof.
    intros c l b. induction l as [|x l IH]; unfold shifted; cbn [lp map fprod].
    - rewrite eval_cons, eval_nil. ring.
    - fold (shifted l b). set (q := lp c l) in *. rewrite (eval_linear K q (0 :: q) _ x 1).
      + rewrite eval_cons, IH. ring.
      + intros i. rewrite coeff_map_seq. destruct (Nat.ltb_spec i (S (length q))); [ring|]. rewrite !coeff_over by (cbn [length]; lia). ring.
  Qed.
  Lemma agree_everywhere : forall c c' l l' B, length l = length l' -> NoDup B -> (length l < length B)%nat ->
    (forall b, In b B -> c * shifted l b = c' * shifted l' b) -> forall b, c * shifted l b = c' * shifted l' b.
  Proof.
    intros c c' l l' B L N Hl H b. set (d := map (fun i => coeff (lp c l) i - coeff (lp c' l') i) (seq 0 (S (length l)))).
    assert (Hd : forall i, coeff d i = 1 * coeff (lp c l) i + - (1) * coeff (lp c' l') i).
    { intros i. unfold d. rewrite coeff_map_seq. destruct (Nat.ltb_spec i (S (length l))); [ring|]. rewrite !coeff_over by (rewrite lp_length; lia). ring. }
    assert (E : forall x, eval d x = c * shifted l x - c' * shifted l' x) by (intros x; rewrite (eval_linear K _ _ _ _ _ x Hd), !lp_eval; ring).
    assert (Z : forall i, coeff d i = 0).
    { apply (roots_bound K B); [exact N|unfold d; rewrite map_length, seq_length; lia|]. intros x Hx. rewrite E, (H x Hx). ring. }
    apply fsub_eq0. rewrite <- E. rewrite (eval_ext K d []); [apply eval_nil|]. intros i. rewrite Z. unfold coeff. now destruct i.
  Qed.
  Lemma shifted_zero : forall l b, shifted l b = 0 -> In (- b) l.
  Proof.
    intros l b. unfold shifted. induction l as [|x l IH]; cbn [map fprod]; intros H.
    - exfalso. exact (f1_neq_0 K H).
    - apply fmul_integral in H. destruct H as [H|H]; [left|right; now apply IH]. transitivity (x + b + - b); [ring|]. rewrite H. ring.
  Qed.
  Lemma shifted_perm : forall l l' b, Permutation l l' -> shifted l b = shifted l' b.
  Proof. intros l l' b H. unfold shifted. now apply fprod_perm, Permutation_map. Qed.
  Theorem shifted_unique : forall l l' c c' B, length l = length l' -> NoDup B -> (length l < length B)%nat -> c <> 0 ->
    (forall b, In b B -> c * shifted l b = c' * shifted l' b) -> Permutation l l'.
  Proof.
    induction l as [|x l IH]; intros l' c c' B L N Hl Hc H; [destruct l'; [constructor|discriminate]|].
    pose proof (agree_everywhere c c' (x :: l) l' B L N Hl H) as Ag.
    assert (Hc' : c' <> 0).
    { intros E. destruct (outside fdec B (map fopp (x :: l)) N) as (b & Hb & Nb); [rewrite map_length; exact Hl|]. specialize (H b Hb). rewrite E in H.
      assert (Z : c * shifted (x :: l) b = 0) by (rewrite H; ring). apply fmul_integral in Z. destruct Z as [Z|Z]; [contradiction|]. apply shifted_zero in Z. apply Nb. apply in_map_iff. exists (- b). split; [ring|exact Z]. }
    assert (Hx : In x l').
    { specialize (Ag (- x)). unfold shifted at 1 in Ag. cbn [map fprod] in Ag. assert (Z : c' * shifted l' (- x) = 0) by (rewrite <- Ag; ring). apply fmul_integral in Z. destruct Z as [Z|Z]; [contradiction|].
      apply shifted_zero in Z. replace x with (- - x) by ring. exact Z. }
    apply in_split in Hx. destruct Hx as (p & q & ->). rewrite <- Permutation_middle. apply perm_skip.
    apply (IH (p ++ q) c c' (without fdec B [- x])).
    - rewrite app_length in *. cbn [length] in L. lia.
    - now apply NoDup_filter.
    - pose proof (without_length fdec B [- x] N). cbn [length] in *. lia.
    - exact Hc.
    - intros b Hb. apply without_in in Hb. destruct Hb as [Hb Nb]. specialize (Ag b). rewrite (shifted_perm (p ++ x :: q) (x :: p ++ q) b) in Ag by (symmetry; apply Permutation_middle).
      unfold shifted in Ag. cbn [map fprod] in Ag. fold (shifted l b) in Ag. fold (shifted (p ++ q) b) in Ag.
      assert (Hne : x + b <> 0) by (intros E; apply Nb; left; transitivity (- x + (x + b)); [rewrite E; ring|ring]).
      apply (fmul_cancel_l K (x + b)); [exact Hne|]. transitivity (c * ((x + b) * shifted l b)); [ring|]. rewrite Ag. ring.
  Qed.

  (** ** The lookup argument. *)
  Lemma prod_two : forall (f g : nat -> K) b c l, fprod (map (fun j => (f j + b) * (g j + c)) l) = shifted (map g l) c * shifted (map f l) b.
  Proof. intros f g b c l. unfold shifted. rewrite !map_map, (fprod_map_mul' K). ring. Qed.
  Lemma shifted_ne : forall l b, ~ In b (map fopp l) -> shifted l b <> 0.
  Proof. intros l b H E. apply shifted_zero in E. apply H. apply in_map_iff. exists (- b). split; [ring|exact E]. Qed.
  Lemma not_opp : forall (f : nat -> K) u j b, (j < u)%nat -> ~ In b (map fopp (map f (seq 0 u))) -> f j + b <> 0.
  Proof.
    intros f u j b Hj H E. apply H. rewrite map_map. apply in_map_iff. exists j. split; [|apply in_seq; lia]. transitivity (b - (f j + b)); [ring|]. rewrite E. ring.
  Qed.

  Lemma lookup_fixed : forall n u (a' s' a s : nat -> K) beta gamma, (0 < u < n)%nat -> lookup_accepts n u a' s' a s (beta, gamma) ->
    ~ In beta (map fopp (map a (seq 0 u))) -> ~ In gamma (map fopp (map s (seq 0 u))) ->
    shifted (map s (seq 0 u)) gamma * shifted (map a (seq 0 u)) beta = shifted (map s' (seq 0 u)) gamma * shifted (map a' (seq 0 u)) beta /\ (forall j, (j < u)%nat -> exists i, (i <= j)%nat /\ a' j = s' i).
  Proof.
    intros n u a' s' a s beta gamma Hu (z & Hz) Hb Hg. destruct (lookup_sound K n u beta gamma z a' s' a s Hu Hz) as [S1 S2]. split; [|exact S1].
    rewrite <- !prod_two. apply S2. intros j Hj. apply fmul_neq0; [now apply (not_opp a u j)|now apply (not_opp s u j)].
  Qed.

  Theorem lookup_counted : forall n u (a' s' a s : nat -> K) (X : list K) (P : list (K * K)), (0 < u < n)%nat -> NoDup X -> NoDup P ->
    (forall p, In p P -> In (fst p) X /\ In (snd p) X /\ lookup_accepts n u a' s' a s p) ->
    (3 * u * length X < length P)%nat ->
    Permutation (map a (seq 0 u)) (map a' (seq 0 u)) /\ Permutation (map s (seq 0 u)) (map s' (seq 0 u)) /\ forall j, (j < u)%nat -> exists i, (i < u)%nat /\ a j = s i.
  Proof.
    intros n u a' s' a s X P Hu HX HP HA HL.
    assert (L : forall f : nat -> K, length (map f (seq 0 u)) = u) by (intros f; now rewrite map_length, seq_length).
    assert (Lo : forall f : nat -> K, length (map fopp (map f (seq 0 u))) = u) by (intros f; now rewrite map_length).
    assert (Use : forall Q, NoDup Q -> (forall p, In p Q -> In (fst p) X /\ In (snd p) X) -> length Q = length P -> forall bad, length bad = u -> exists g G, ~ In g bad /\ NoDup G /\ (2 * u < length G)%nat /\ forall b, In b G -> In (g, b) Q).
    { intros Q NQ HQ LQ bad Lb. pose proof (rich_bound fdec X Q (2 * u) HX NQ HQ) as RB.
      destruct (outside fdec (rich fdec X Q (2 * u)) bad) as (g & Hg & Ng).
      - now apply NoDup_filter.
      - rewrite Lb. rewrite LQ in RB. clear - RB HL. nia.
      - exists g, (fiber fdec Q g). split; [exact Ng|]. apply rich_in in Hg. split; [now apply fiber_nodup|]. split; [apply Hg|]. intros b Hb. now apply fiber_in in Hb. }
    set (P' := map (fun p => (snd p, fst p)) P).
    assert (NP' : NoDup P') by (apply NoDup_map_in; [|exact HP]; intros [x y] [x' y'] _ _ E; cbn in E; congruence).
    destruct (Use P' NP') with (bad := map fopp (map s (seq 0 u))) as (gamma & B & Ng & NB & LB & HB); [|unfold P'; now rewrite map_length|apply Lo|].
    { intros p Hp. unfold P' in Hp. apply in_map_iff in Hp. destruct Hp as ([x y] & <- & Hp). cbn [fst snd]. destruct (HA _ Hp) as (H1 & H2 & _). auto. }
    destruct (Use P HP) with (bad := map fopp (map a (seq 0 u))) as (beta & G & Nb & NG & LG & HG); [intros p Hp; destruct (HA _ Hp) as (H1 & H2 & _); auto|reflexivity|apply Lo|].
    clear Use.
    assert (Pa : Permutation (map a (seq 0 u)) (map a' (seq 0 u))).
    { apply (shifted_unique _ _ (shifted (map s (seq 0 u)) gamma) (shifted (map s' (seq 0 u)) gamma) (without fdec B (map fopp (map a (seq 0 u))))).
      - now rewrite !L.
      - now apply NoDup_filter.
      - rewrite L. pose proof (without_length fdec B (map fopp (map a (seq 0 u))) NB) as W. rewrite Lo in W. lia.
      - now apply shifted_ne.
      - intros b Hb. apply without_in in Hb. destruct Hb as [Hb Hn]. apply HB in Hb. unfold P' in Hb. apply in_map_iff in Hb. destruct Hb as ([x y] & E & Hp). cbn in E. injection E as -> ->. destruct (HA _ Hp) as (_ & _ & Acc). now apply (lookup_fixed n u a' s' a s b gamma Hu Acc). }
    assert (Ps : Permutation (map s (seq 0 u)) (map s' (seq 0 u))).
    { apply (shifted_unique _ _ (shifted (map a (seq 0 u)) beta) (shifted (map a' (seq 0 u)) beta) (without fdec G (map fopp (map s (seq 0 u))))).
      - now rewrite !L.
      - now apply NoDup_filter.
      - rewrite L. pose proof (without_length fdec G (map fopp (map s (seq 0 u))) NG) as W. rewrite Lo in W. lia.
      - now apply shifted_ne.
      - intros g Hg. apply without_in in Hg. destruct Hg as [Hg Hn]. apply HG in Hg. destruct (HA _ Hg) as (_ & _ & Acc). destruct (lookup_fixed n u a' s' a s beta g Hu Acc Nb Hn) as [E _].
        transitivity (shifted (map s (seq 0 u)) g * shifted (map a (seq 0 u)) beta); [ring|]. rewrite E. ring. }
    split; [exact Pa|]. split; [exact Ps|]. intros j Hj.
    assert (Hin : In (a j) (map a' (seq 0 u))) by (apply (Permutation_in _ Pa); apply in_map, in_seq; lia). apply in_map_iff in Hin. destruct Hin as (k & Ek & Hk). apply in_seq in Hk.
    assert (HP0 : exists p, In p P) by (destruct P as [|p P0]; [cbn in HL; lia|exists p; now left]). destruct HP0 as (p & Hp). destruct (HA p Hp) as (_ & _ & (z & Hz)).
    destruct (proj1 (lookup_sound K n u _ _ z a' s' a s Hu Hz) k) as (i & Hi & Ei); [lia|].
    assert (Hin : In (s' i) (map s (seq 0 u))) by (apply (Permutation_in _ (Permutation_sym Ps)); apply in_map, in_seq; lia). apply in_map_iff in Hin. destruct Hin as (i' & Ei' & Hi'). apply in_seq in Hi'.
    exists i'. split; [lia|]. rewrite <- Ek, Ei. now symmetry.
  Qed.

  (** ** The permutation argument. *)
  Lemma telescope : forall (z nm dn : nat -> K) u, (forall j, (j < u)%nat -> z (S j) * dn j = z j * nm j) -> z u * fprod (map dn (seq 0 u)) = z 0%nat * fprod (map nm (seq 0 u)).
  Proof.
    intros z nm dn u. induction u as [|u IH]; intros H; [reflexivity|]. rewrite !(fprod_seq_S K).
    transitivity (fprod (map dn (seq 0 u)) * (z (S u) * dn u)); [ring|]. rewrite H by lia.
    transitivity ((z u * fprod (map dn (seq 0 u))) * nm u); [ring|]. rewrite IH by (intros j Hj; apply H; lia). ring.
  Qed.

  Lemma permutation_identity : forall n u len (delta omega : K) values perms (beta gamma : K), (0 < u < n)%nat -> (0 < len)%nat -> (0 < length values)%nat -> length perms = length values ->
    permutation_accepts n u len delta omega values perms (beta, gamma) ->
    let cols := length values in
    let N := fun c j => cell2 values c j + beta * (delta ^ c * omega ^ j) + gamma in
    let D := fun c j => cell2 values c j + beta * cell2 perms c j + gamma in
    (forall c j, (c < cols)%nat -> (j < u)%nat -> N c j <> 0) ->
    fprod (map (fun c => fprod (map (N c) (seq 0 u))) (seq 0 cols)) = fprod (map (fun c => fprod (map (D c) (seq 0 u))) (seq 0 cols)).
  Proof.
    intros n u len delta omega values perms beta gamma Hu Hl Hv Lp (zs & Lz & HZ) cols N D HN. cbn [fst snd] in HZ. fold cols in Lz.
    set (num := Nat.div (cols + len - 1) len) in *.
    assert (Hnum : (0 < num)%nat) by (unfold num; apply Nat.div_str_pos; subst cols; lia).
    assert (sub0 : forall x y : K, x - y = 0 -> x = y) by (intros x y E; transitivity (x - y + y); [ring|rewrite E; ring]).
    destruct zs as [|z0 zr] eqn:Ezs; [cbn in Lz; lia|]. rewrite <- Ezs in *.
    assert (HZ' : forall j, (j < n)%nat -> first_row j * (1 - cell z0 j) = 0 /\ last_row u j * (List.last (row_of zs j) 0 * List.last (row_of zs j) 0 - List.last (row_of zs j) 0) = 0 /\
                  Forall (fun e => e = 0) (map (fun p => first_row j * (fst p - snd p)) (combine (row_of zr j) (row_of zs ((j + u) mod n)))) /\
                  Forall (fun e => e = 0) (map (fun i => (1 - (last_row u j + blind_row u j)) * chunk_expression delta (omega ^ j) beta gamma len i (cell (row_of zs j) i) (cell (row_of zs (next_row n j)) i) (chunk_of (row_of values j) len i) (chunk_of (row_of perms j) len i)) (seq 0 num))).
    { intros j Hj. specialize (HZ j Hj). unfold permutation_verifier_evals in HZ. rewrite Ezs in HZ at 1. unfold row_of at 1 in HZ. cbn [map] in HZ.
      change (map (fun col : list K => cell col j) zr) with (row_of zr j) in HZ. apply Forall_app in HZ. destruct HZ as [H1 H2]. apply Forall_app in H2. destruct H2 as [H2 H3].
      apply Forall_cons_iff in H1. destruct H1 as [H0 H1]. apply Forall_cons_iff in H1. destruct H1 as [H1 _].
      assert (Er : cell z0 j :: row_of zr j = row_of zs j) by (rewrite Ezs; reflexivity). try rewrite Er in H1; try rewrite Er in H3.
      assert (En : length (row_of values j) = cols) by (unfold row_of; now rewrite map_length). rewrite En in H3. auto. }
    assert (Z0 : cell (nth 0 zs []) 0 = 1).
    { rewrite Ezs. cbn [nth]. destruct (HZ' 0%nat ltac:(lia)) as (H & _). unfold first_row in H. rewrite Nat.eqb_refl in H. symmetry. apply sub0. rewrite <- H. ring. }
    assert (Zc : forall i, (S i < num)%nat -> cell (nth (S i) zs []) 0 = cell (nth i zs []) u).
    { intros i Hi. destruct (HZ' 0%nat ltac:(lia)) as (_ & _ & H & _). rewrite Nat.add_0_l, (Nat.mod_small u n) in H by lia. rewrite Forall_forall in H.
      assert (Lzr : S (length zr) = num) by (rewrite <- Lz, Ezs; reflexivity).
      specialize (H (first_row 0 * (cell (nth (S i) zs []) 0 - cell (nth i zs []) u))). apply sub0. rewrite <- H; [unfold first_row; cbn [Nat.eqb]; ring|].
      apply in_map_iff. exists (cell (nth (S i) zs []) 0, cell (nth i zs []) u). split; [reflexivity|]. apply (nth_error_In _ i).
      rewrite Ezs at 2. cbn [nth]. unfold row_of. rewrite <- !row_nth.
      assert (Q : forall (la lb : list K), (i < length la)%nat -> (i < length lb)%nat -> nth_error (combine la lb) i = Some (nth i la 0, nth i lb 0)).
      { clear. intros la. revert i. induction la as [|x la IH]; intros [|i] [|y lb] H1 H2; cbn in *; try lia; [reflexivity|]. apply IH; lia. }
      apply Q; rewrite map_length; lia. }
    assert (St : forall i j, (i < num)%nat -> (j < u)%nat ->
              cell (nth i zs []) (S j) * fprod (map (fun c => D (i * len + c)%nat j) (seq 0 (chunk_size cols len i))) = cell (nth i zs []) j * fprod (map (fun c => N (i * len + c)%nat j) (seq 0 (chunk_size cols len i)))).
    { intros i j Hi Hj. destruct (HZ' j ltac:(lia)) as (_ & _ & _ & H). rewrite Forall_forall in H.
      specialize (H _ (in_map _ _ i (proj2 (in_seq num 0 i) ltac:(lia)))). cbv beta in H. rewrite flags_one in H by exact Hj.
      unfold row_of at 3 4 in H. rewrite !chunk_of_row, Lp in H. fold cols in H. destruct (chunk_size_min cols len i Hl ltac:(fold num; lia)) as [Es Ho2]. rewrite <- Es, chunk_expression_eq in H.
      rewrite next_row_lt, Nat.add_1_r in H by lia. assert (R : forall q, cell (row_of zs q) i = cell (nth i zs []) q) by (intros q; exact (row_nth K zs i q)). rewrite !R in H. apply sub0 in H. exact H. }
    set (DD := fun c => fprod (map (D c) (seq 0 u))). set (NN := fun c => fprod (map (N c) (seq 0 u))).
    assert (Ch : forall i, (i < num)%nat -> cell (nth i zs []) u * fprod (map DD (seq 0 (i * len + chunk_size cols len i))) = fprod (map NN (seq 0 (i * len + chunk_size cols len i)))).
    { assert (Step : forall i, (i < num)%nat -> cell (nth i zs []) u * fprod (map DD (seq (i * len) (chunk_size cols len i))) = cell (nth i zs []) 0 * fprod (map NN (seq (i * len) (chunk_size cols len i)))).
      { intros i Hi. pose proof (telescope (cell (nth i zs [])) _ _ u (fun j Hj => St i j Hi Hj)) as T.
        rewrite (fprod_swap K (fun c j => D (i * len + c)%nat j)), (fprod_swap K (fun c j => N (i * len + c)%nat j)) in T. rewrite (map_seq_off DD), (map_seq_off NN) in T || idtac.
        rewrite <- (map_seq_off DD), <- (map_seq_off NN). exact T. }
      induction i as [|i IH]; intros Hi.
      - specialize (Step 0%nat Hi). cbn [Nat.mul Nat.add] in *. rewrite Step, Z0. ring.
      - specialize (IH ltac:(lia)). specialize (Step (S i) Hi). rewrite !seq_app, !map_app, !fprod_app. cbn [Nat.add].
        assert (Es : chunk_size cols len i = len). { unfold chunk_size. fold num. destruct (Nat.ltb_spec i (num - 1)); [reflexivity|lia]. }
        rewrite Es in IH. replace (i * len + len)%nat with (S i * len)%nat in IH by lia. rewrite Zc in Step by lia.
        set (a := fprod (map DD (seq 0 (S i * len)))) in *. set (b := fprod (map NN (seq 0 (S i * len)))) in *.
        transitivity (a * (cell (nth (S i) zs []) u * fprod (map DD (seq (S i * len) (chunk_size cols len (S i)))))); [ring|]. rewrite Step.
        transitivity ((cell (nth i zs []) u * a) * fprod (map NN (seq (S i * len) (chunk_size cols len (S i))))); [ring|]. rewrite IH. ring. }
    specialize (Ch (num - 1)%nat ltac:(lia)). destruct (chunk_size_min cols len (num - 1) Hl ltac:(fold num; lia)) as [_ Ho2].
    assert (Es : ((num - 1) * len + chunk_size cols len (num - 1) = cols)%nat). { unfold chunk_size. fold num. destruct (Nat.ltb_spec (num - 1) (num - 1)); lia. }
    rewrite Es in Ch.
    assert (NZ : fprod (map NN (seq 0 cols)) <> 0).
    { apply fprod_neq0. intros x Hx. apply in_map_iff in Hx. destruct Hx as (c & <- & Hc). apply in_seq in Hc. apply fprod_neq0. intros x Hx. apply in_map_iff in Hx. destruct Hx as (j & <- & Hj). apply in_seq in Hj. apply HN; lia. }
    assert (El : cell (nth (num - 1) zs []) u = List.last (row_of zs u) 0).
    { assert (Lr : length (row_of zs u) = num) by (unfold row_of; now rewrite map_length).
      assert (Ex : row_of zs u = removelast (row_of zs u) ++ [List.last (row_of zs u) 0]) by (apply app_removelast_last; intros Hx; rewrite Hx in Lr; cbn in Lr; lia).
      transitivity (nth (num - 1) (row_of zs u) 0); [unfold row_of; now rewrite row_nth|]. rewrite Ex at 1. rewrite app_nth2; rewrite length_removelast, Lr; [|lia]. rewrite Nat.sub_diag. reflexivity. }
    destruct (HZ' u ltac:(lia)) as (_ & H & _). rewrite <- El in H. unfold last_row in H. rewrite Nat.eqb_refl in H. set (e := cell (nth (num - 1) zs []) u) in *.
    assert (Ee : e * (e - 1) = 0) by (rewrite <- H; ring). apply fmul_integral in Ee. destruct Ee as [Ee|Ee].
    - exfalso. apply NZ. rewrite <- Ch, Ee. ring.
    - apply sub0 in Ee. rewrite Ee in Ch. fold DD NN. rewrite <- Ch. ring.
  Qed.

  Lemma connected_usable : forall u pairs a b, Forall (fun p : label * label => (snd (fst p) < u)%nat /\ (snd (snd p) < u)%nat) pairs -> connected pairs a b -> a = b \/ ((snd a < u)%nat /\ (snd b < u)%nat).
  Proof.
    intros u pairs a b HF H. unfold connected in H. induction H as [a b H|a|a b H IH|a b c H1 IH1 H2 IH2]; auto.
    - right. rewrite Forall_forall in HF. exact (HF _ H).
    - destruct IH as [->|[A B]]; auto.
    - destruct IH1 as [->|[A B]]; [exact IH2|]. destruct IH2 as [->|[C E]]; auto.
  Qed.

  Theorem permutation_counted (g omega : K) T s k cols bf len pairs (values : list (list K)) (X : list K) (P : list (K * K)) :
    let n := (2 ^ k)%nat in let u := (n - (bf + 1))%nat in
    Nat.Odd T -> (k <= s)%nat -> primitive_root g (T * 2 ^ s) -> primitive_root omega n -> (0 < cols <= T)%nat ->
    (bf + 1 < n)%nat -> (0 < len)%nat ->
    Forall (fun p => in_grid cols u (fst p) /\ in_grid cols u (snd p)) pairs ->
    length values = cols -> Forall (fun col => length col = n) values ->
    let delta := get_delta g s in
    forall xs st perms, merge_all (create cols n) pairs = Some (xs, st) -> generate_permutations (unpermuted_table delta omega cols n) st cols n = Some perms ->
    NoDup X -> NoDup P ->
    (forall p, In p P -> In (fst p) X /\ In (snd p) X /\ permutation_accepts n u len delta omega values perms p) ->
    (3 * (cols * u) * length X < length P)%nat ->
    forall a b, In (a, b) pairs -> tget values a = tget values b.
  Proof.
    intros n u Od Hk Hg Ho Hc Hn Hl HF Lv HFv delta xs st perms E1 E2 HX HP HA HL.
    assert (HF' : Forall (fun p => in_grid cols n (fst p) /\ in_grid cols n (snd p)) pairs).
    { eapply Forall_impl; [|exact HF]. intros [[c r] [c' r']] [[A B] [C D]]. cbn in *. repeat split; cbn; subst u; lia. }
    destruct (permutation_columns K g omega T s k cols pairs Od Hk Hg Ho Hc HF') as (xs' & st' & perms' & E1' & E2' & Dist & Ent & Inj & CC).
    fold delta in E2', Dist, Ent, CC. fold n in E1', E2', Dist, Ent, Inj, CC. rewrite E1 in E1'. injection E1' as <- <-. rewrite E2 in E2'. injection E2' as <-. clear xs E1.
    assert (Lp : length perms = cols) by exact (generate_length K _ st cols n perms E2).
    assert (HFu : Forall (fun p : label * label => (snd (fst p) < u)%nat /\ (snd (snd p) < u)%nat) pairs) by (eapply Forall_impl; [|exact HF]; intros p [[_ A] [_ B]]; auto).
    assert (Up : forall a, in_grid cols u a -> in_grid cols n a) by (intros [c r] [A B]; split; cbn in *; subst u; lia).
    set (cells := all_cells cols u) in *.
    assert (Lc : length cells = (cols * u)%nat) by apply all_cells_length.
    set (val := fun a : nat * nat => cell2 values (fst a) (snd a)). set (idl := fun a : nat * nat => delta ^ fst a * omega ^ snd a). set (sig := fun a : nat * nat => cell2 perms (fst a) (snd a)).
    assert (Hu : (0 < u < n)%nat) by (subst u; lia).
    (* a good beta permutes the shifted values *)
    set (good := rich fdec X P (2 * (cols * u))).
    assert (Lg : (cols * u < length good)%nat).
    { pose proof (rich_bound fdec X P (2 * (cols * u)) HX HP) as RB. fold good in RB. specialize (RB (fun p Hp => conj (proj1 (HA p Hp)) (proj1 (proj2 (HA p Hp))))). clear - RB HL. nia. }
    assert (Gd : forall beta, In beta good -> Permutation (map (fun a => val a + beta * idl a) cells) (map (fun a => val a + beta * sig a) cells)).
    { intros beta Hb. apply rich_in in Hb. destruct Hb as [_ Hb]. set (bad := map fopp (map (fun a => val a + beta * idl a) cells)).
      apply (shifted_unique _ _ 1 1 (without fdec (fiber fdec P beta) bad)).
      - now rewrite !map_length.
      - apply NoDup_filter, fiber_nodup, HP.
      - pose proof (without_length fdec (fiber fdec P beta) bad (fiber_nodup fdec P beta HP)) as W. assert (Lb : length bad = (cols * u)%nat) by (unfold bad; rewrite !map_length; exact Lc). rewrite map_length, Lc. lia.
      - apply f1_neq_0.
      - intros gamma Hg'. apply without_in in Hg'. destruct Hg' as [Hg' Nb]. apply fiber_in in Hg'. destruct (HA _ Hg') as (_ & _ & Acc).
        assert (Vne : (0 < length values)%nat) by lia.
        pose proof (permutation_identity n u len delta omega values perms beta gamma Hu Hl Vne ltac:(congruence) Acc) as Id. cbv zeta in Id. rewrite Lv in Id.
        rewrite <- !all_cells_prod in Id. f_equal. unfold shifted. rewrite !map_map. fold cells in Id. unfold val, idl, sig. apply Id.
        intros c j H1 H2 E. apply Nb. unfold bad. rewrite map_map. apply in_map_iff. exists (c, j). split; [|apply all_cells_in; split; assumption].
        unfold val, idl. cbn [fst snd]. transitivity (gamma - (cell2 values c j + beta * (delta ^ c * omega ^ j) + gamma)); [ring|]. rewrite E. ring. }
    (* pigeonhole over the good betas *)
    assert (Key : forall a, In a cells -> exists b, In b cells /\ val a = val b /\ idl a = sig b).
    { intros a Ha. destruct (pigeon (fun beta b => val a + beta * idl a = val b + beta * sig b) label_dec good cells) as (b1 & b2 & b & Hne & Hb & R1 & R2).
      - now apply NoDup_filter.
      - now rewrite Lc.
      - intros beta Hbeta. specialize (Gd beta Hbeta). assert (Hin : In (val a + beta * idl a) (map (fun a => val a + beta * sig a) cells)).
        { apply (Permutation_in _ Gd). now apply (in_map (fun a => val a + beta * idl a)). }
        apply in_map_iff in Hin. destruct Hin as (b & Eb & Hb). exists b. split; [exact Hb|now symmetry].
      - exists b. split; [exact Hb|]. assert (Z : (b1 - b2) * (idl a - sig b) = 0).
        { transitivity ((val a + b1 * idl a) - (val a + b2 * idl a) - ((val b + b1 * sig b) - (val b + b2 * sig b))); [ring|]. rewrite R1, R2. ring. }
        apply fmul_integral in Z. destruct Z as [Z|Z]; [exfalso; apply Hne; now apply fsub_eq0|]. apply (proj1 (fsub_eq0 K (idl a) (sig b))) in Z. split; [|exact Z].
        transitivity (val a + b1 * idl a - b1 * idl a); [ring|]. rewrite R1, Z. ring. }
    assert (Sig : forall b, in_grid cols n b -> tget perms b = Some (sig b)).
    { intros [c r] Gb. destruct (Ent _ Gb) as (b' & _ & Eb & _). rewrite Eb. f_equal. unfold sig. cbn [fst snd]. symmetry. now apply tget_cell2. }
    assert (Tv : forall a b, in_grid cols n a -> in_grid cols n b -> val a = val b -> tget values a = tget values b).
    { assert (W : forall a, in_grid cols n a -> tget values a = Some (val a)).
      { intros [c r] [H1 H2]. cbn [fst snd] in *. unfold tget, val, cell2. cbn [fst snd]. rewrite (nth_error_nth' values [] (n := c)) by lia. rewrite Forall_forall in HFv.
        rewrite (nth_error_nth' _ 0 (n := r)); [reflexivity|]. rewrite HFv; [exact H2|]. apply nth_In. lia. }
      intros a b Ga Gb E. rewrite !W by assumption. now rewrite E. }
    apply (CC (option K) (fun a => tget values a)). intros b a Gb Ga Hba.
    destruct (Ent b Gb) as (a0 & Ga0 & Ea0 & Cba). rewrite Hba in Ea0. injection Ea0 as Ev. apply Dist in Ev; [|assumption|assumption]. subst a0.
    destruct (connected_usable u pairs b a HFu Cba) as [->|[Ub Ua]]; [reflexivity|].
    destruct (Key a) as (b' & Hb' & Ev & Es). { apply all_cells_in. split; [apply Ga|exact Ua]. }
    apply all_cells_in in Hb'. assert (Ebb : b' = b).
    { apply (Inj b' b (Up _ Hb') Gb). rewrite (Sig b' (Up _ Hb')), Hba. f_equal. now rewrite <- Es. }
    subst b'. apply Tv; auto.
  Qed.
End Sound.
