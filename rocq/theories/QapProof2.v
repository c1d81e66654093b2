(** The witness map: the quotient of A B - C by the vanishing polynomial, and what the identity says. *)
From Coq Require Import ZArith Lia List Bool Arith Ring Field Field_theory.
From Verif Require Import Field BigIntModel ParallelizeModel ParallelizeExtra SemigroupModel PolyModel PolySpec PolyProof PolyProof3 FFTModel FFTSpec FFTProof FFTProof3 FFTProof4 FFTProof5 FFTExtra BatchProof2 DomainModel DomainSpec DomainProof DomainProof2 DomainExtra
  R1csModel R1csSpec QapModel QapSpec QapProof.
Import ListNotations.

Section QapProof2.
  Variable K : fld.
  Add Field Kq2 : (fld_theory K).
  Open Scope fld_scope.
  Implicit Types (z v l A B C h : list K) (x y : K).

  (** ** The defect A B - C - h (X^n - 1), as coefficients *)
  Definition defect (A B C h : list K) (n : nat) (i : nat) : K :=
    coeff (pm K A B) i - coeff C i - (if Nat.leb n i then coeff h (i - n) else 0) + coeff h i.
  Lemma shift_coeff n h i : coeff (repeat 0 n ++ h) i = if Nat.leb n i then coeff h (i - n) else 0.
  Proof.
    unfold coeff. destruct (Nat.leb_spec n i) as [H|H].
    - rewrite app_nth2; rewrite repeat_length; auto.
    - rewrite app_nth1 by (rewrite repeat_length; lia). apply nth_repeat.
  Qed.
  Lemma eval_repeat0 n x : eval (repeat (0 : K) n) x = 0.
  Proof. induction n; cbn [repeat]; [apply eval_nil|]. rewrite eval_cons, IHn. ring. Qed.
  Lemma tab_coeff (f : nat -> K) n i : coeff (map f (seq 0 n)) i = if Nat.ltb i n then f i else 0.
  Proof.
    unfold coeff. destruct (Nat.ltb_spec i n) as [H|H]; [|apply nth_overflow; rewrite map_length, seq_length; lia].
    rewrite (nth_indep _ 0 (f 0%nat)) by (rewrite map_length, seq_length; lia). rewrite map_nth, seq_nth by lia. reflexivity.
  Qed.
  Lemma pm_high (A B : list K) n i : (length A <= n)%nat -> (length B <= n)%nat -> (2 * n - 1 <= i)%nat -> coeff (pm K A B) i = 0.
  Proof.
    intros LA LB Hi. rewrite pm_coeff. unfold conv. apply fsum_zero. intros j Hj. apply in_seq in Hj.
    destruct (Nat.le_gt_cases (length A) j) as [L|L]; [rewrite (coeff_over K A) by lia; ring|].
    rewrite (coeff_over K B) by lia. ring.
  Qed.
  Lemma defect_high A B C h n len i : (length A <= n)%nat -> (length B <= n)%nat -> (length C <= n)%nat -> (0 < n)%nat ->
    (2 * n - 1 <= len)%nat -> (length h + n <= len)%nat -> (len <= i)%nat -> defect A B C h n i = 0.
  Proof.
    intros LA LB LC Hn Hl Hh Hi. unfold defect. rewrite (pm_high A B n) by lia. rewrite (coeff_over K C) by lia.
    rewrite (coeff_over K h i) by lia. destruct (Nat.leb_spec n i); [rewrite (coeff_over K h) by lia|]; ring.
  Qed.
  Lemma defect_eval A B C h n len x : (forall i, (len <= i)%nat -> defect A B C h n i = 0) ->
    eval (map (defect A B C h n) (seq 0 len)) x = eval A x * eval B x - eval C x - eval h x * (x ^ n - 1).
  Proof.
    intros H0.
    set (u := map (fun i => coeff (pm K A B) i - coeff C i) (seq 0 (Nat.max (length (pm K A B)) (length C)))).
    set (w := map (fun i => coeff (repeat 0 n ++ h) i - coeff h i) (seq 0 (n + length h))).
    assert (Eu : eval u x = 1 * eval (pm K A B) x + (- (1)) * eval C x).
    { apply eval_linear. intros i. unfold u. rewrite tab_coeff. destruct (Nat.ltb_spec i (Nat.max (length (pm K A B)) (length C))); [ring|].
      rewrite !coeff_over by lia. ring. }
    assert (Ew : eval w x = 1 * eval (repeat 0 n ++ h) x + (- (1)) * eval h x).
    { apply eval_linear. intros i. unfold w. rewrite tab_coeff. destruct (Nat.ltb_spec i (n + length h)); [ring|].
      rewrite !coeff_over by (rewrite ?app_length, ?repeat_length; lia). ring. }
    rewrite (eval_linear K u w _ 1 (- (1))).
    - rewrite Eu, Ew, pm_eval, eval_app, repeat_length, eval_repeat0. ring.
    - intros i. rewrite tab_coeff. destruct (Nat.ltb_spec i len) as [L|L].
      + unfold defect. unfold u, w. rewrite !tab_coeff, shift_coeff.
        destruct (Nat.ltb_spec i (Nat.max (length (pm K A B)) (length C))) as [L1|L1], (Nat.ltb_spec i (n + length h)) as [L2|L2];
          rewrite ?(coeff_over K (pm K A B)), ?(coeff_over K C), ?(coeff_over K h i) by lia;
          try (destruct (Nat.leb_spec n i); [rewrite ?(coeff_over K h (i - n)) by lia|]); try ring; exfalso; lia.
      + pose proof (H0 i L) as E. unfold defect in E. unfold u, w. rewrite !tab_coeff, shift_coeff.
        assert (P1 : (if Nat.ltb i (Nat.max (length (pm K A B)) (length C)) then coeff (pm K A B) i - coeff C i else 0) = coeff (pm K A B) i - coeff C i).
        { destruct (Nat.ltb_spec i (Nat.max (length (pm K A B)) (length C))); [reflexivity|]. rewrite !coeff_over by lia. ring. }
        rewrite P1.
        assert (P2 : (if Nat.ltb i (n + length h) then (if Nat.leb n i then coeff h (i - n) else 0) - coeff h i else 0) = (if Nat.leb n i then coeff h (i - n) else 0) - coeff h i).
        { destruct (Nat.ltb_spec i (n + length h)); [reflexivity|]. destruct (Nat.leb_spec n i); [|lia]. rewrite !coeff_over by lia. ring. }
        rewrite P2. etransitivity; [symmetry; exact E|]. ring.
  Qed.

  (** ** What the identity says about the rows *)
  Lemma identity_on_domain m z g n A B C : qap_polys m z g n A B C -> (m_con m <= n)%nat ->
    (forall i, (i < n)%nat -> eval A (g ^ i) * eval B (g ^ i) - eval C (g ^ i) = 0) -> rows_hold m z.
  Proof.
    intros ((LA & VA) & (LB & VB) & (LC & VC)) Hn H i Hi. specialize (H i ltac:(lia)). rewrite VA, VB, VC in H by lia.
    unfold a_value, b_value, c_value in H. destruct (Nat.ltb_spec i (m_con m)); [|lia]. apply fsub_eq0. exact H.
  Qed.
  Lemma rows_on_domain m z g n A B C i : qap_polys m z g n A B C -> rows_hold m z -> (i < n)%nat ->
    eval A (g ^ i) * eval B (g ^ i) - eval C (g ^ i) = 0.
  Proof.
    intros ((LA & VA) & (LB & VB) & (LC & VC)) H Hi. rewrite VA, VB, VC by lia. unfold a_value, b_value, c_value.
    destruct (Nat.ltb_spec i (m_con m)); [apply fsub_eq0; apply H; auto|]. ring.
  Qed.
  Lemma schwartz_zippel m z g n A B C h xs : primitive_root g n -> (0 < n)%nat -> (m_con m <= n)%nat -> qap_polys m z g n A B C -> (length h < n)%nat -> NoDup xs ->
    (forall x, In x xs -> eval A x * eval B x - eval C x = eval h x * (x ^ n - 1)) -> (2 * n - 1 <= length xs)%nat -> rows_hold m z.
  Proof.
    intros [HP _] Hn Hm HQ Lh Hnd Hx Hlen. pose proof HQ as ((LA & VA) & (LB & VB) & (LC & VC)).
    assert (H0 : forall i, (2 * n - 1 <= i)%nat -> defect A B C h n i = 0) by (intros i Hi; apply (defect_high A B C h n (2 * n - 1)); lia).
    assert (HD : forall i, coeff (map (defect A B C h n) (seq 0 (2 * n - 1))) i = 0).
    { apply (roots_bound K xs); auto; [rewrite map_length, seq_length; lia|]. intros x Hin. rewrite (defect_eval A B C h n (2 * n - 1) x H0), Hx by auto. ring. }
    apply (identity_on_domain m z g n A B C HQ Hm). intros i Hi.
    pose proof (defect_eval A B C h n (2 * n - 1) (g ^ i) H0) as E.
    rewrite (eval_ext K _ [] _) in E by (intros j; rewrite HD; symmetry; apply coeff_over; cbn; lia). rewrite eval_nil in E.
    assert (Ei : (g ^ i) ^ n = 1) by (rewrite <- fpow_mul, Nat.mul_comm, fpow_mul, HP, fpow_one; reflexivity).
    rewrite Ei in E. transitivity (eval A (g ^ i) * eval B (g ^ i) - eval C (g ^ i) - eval h (g ^ i) * (1 - 1)); [ring|]. symmetry. exact E.
  Qed.

  (** ** The rows of the witness map *)
  Lemma evaluate_fold z : forall row s, (forall c, In c row -> (snd c < length z)%nat) ->
    fold_left (fun acc c => match acc, nth_error z (snd c) with
      | Some sum, Some v => Some (if feqb (fst c) 1 then sum + v else sum + v * fst c) | _, _ => None end) row (Some s) = Some (s + row_value z row).
  Proof.
    induction row as [|c row IH]; intros s H; cbn [fold_left].
    - unfold row_value. cbn [map fsum]. f_equal. ring.
    - rewrite (nth_error_nth' z 0) by (apply H; left; auto). rewrite IH by (intros; apply H; right; auto). f_equal.
      unfold row_value. cbn [map fsum]. destruct (feqb (fst c) 1) eqn:E; [apply feqb_eq in E; rewrite E|]; ring.
  Qed.
  Lemma constraint_values_spec rows n z : (n <= length rows)%nat -> (forall row c, In row rows -> In c row -> (snd c < length z)%nat) ->
    constraint_values rows n z = Some (map (fun i => row_value z (nth i rows [])) (seq 0 n)).
  Proof.
    unfold constraint_values. intros Hn Hc. assert (W : forall l : list nat, (forall i, In i l -> (i < n)%nat) ->
      fold_right (fun i acc => match nth_error rows i with None => None | Some row => match evaluate_constraint row z, acc with Some v, Some l => Some (v :: l) | _, _ => None end end) (Some []) l
      = Some (map (fun i => row_value z (nth i rows [])) l)).
    { induction l as [|i l IH]; intros H; cbn [fold_right map]; [reflexivity|]. rewrite IH by (intros; apply H; right; auto).
      pose proof (H i (or_introl eq_refl)). rewrite (nth_error_nth' rows []) by lia.
      unfold evaluate_constraint. rewrite evaluate_fold.
      - f_equal. f_equal. match goal with |- _ + ?a = ?b => change b with a end. ring.
      - intros c Hin. apply (Hc (nth i rows [])); auto. apply nth_In. lia. }
    apply W. intros i Hi. apply in_seq in Hi. lia.
  Qed.
  Lemma copy_spec z from : forall todo i a, (i + todo <= length z)%nat -> (from + i + todo <= length a)%nat ->
    exists a', copy_instances z from todo i a = Some a' /\ length a' = length a /\
      forall j, nth j a' 0 = if (Nat.leb (from + i) j && Nat.ltb j (from + i + todo))%bool then nth (j - from) z 0 else nth j a 0.
  Proof.
    induction todo as [|todo IH]; intros i a Hz Ha.
    - exists a. cbn [copy_instances]. split; [reflexivity|]. split; [reflexivity|]. intros j.
      destruct (Nat.leb_spec (from + i) j); cbn [andb]; auto. destruct (Nat.ltb_spec j (from + i + 0)); [lia|auto].
    - cbn [copy_instances]. rewrite (nth_error_nth' z 0) by lia. rewrite (nth_error_nth' a 0) by lia.
      destruct (IH (S i) (set_at a (from + i) (nth i z 0))) as (a' & E & L & N).
      + lia.
      + rewrite set_at_length. lia.
      + exists a'. split; [exact E|]. rewrite set_at_length in L. split; [exact L|]. intros j. rewrite N, set_at_nth by lia.
        destruct (Nat.leb_spec (from + S i) j), (Nat.leb_spec (from + i) j), (Nat.ltb_spec j (from + S i + todo)), (Nat.ltb_spec j (from + i + S todo)), (Nat.eqb_spec j (from + i));
          cbn [andb]; try lia; auto. subst j. f_equal. lia.
  Qed.
  Lemma pad_nth (f : nat -> K) n N j : (n <= N)%nat -> nth j (map f (seq 0 n) ++ repeat 0 (N - n)) 0 = if Nat.ltb j n then f j else 0.
  Proof.
    intros H. destruct (Nat.ltb_spec j n) as [L|L].
    - rewrite app_nth1 by (rewrite map_length, seq_length; lia). pose proof (tab_coeff f n j) as T. unfold coeff in T. rewrite T.
      destruct (Nat.ltb_spec j n); [reflexivity|lia].
    - rewrite app_nth2 by (rewrite map_length, seq_length; lia). apply nth_repeat.
  Qed.
  Lemma quotient_spec a b c (v : K) n (fa fb fc : nat -> K) : length a = n ->
    (forall i, (i < n)%nat -> nth i a 0 = fa i /\ value_at b i = fb i /\ value_at c i = fc i) ->
    forall todo i, (i + todo <= n)%nat -> quotient_values a b c v todo i = Some (map (fun i => (fa i * fb i - fc i) * v) (seq i todo)).
  Proof.
    intros La H. induction todo as [|todo IH]; intros i Hi; cbn [quotient_values seq map]; [reflexivity|].
    rewrite IH by lia. unfold quotient_value. rewrite (nth_error_nth' a 0) by lia. destruct (H i ltac:(lia)) as (-> & -> & ->). reflexivity.
  Qed.

  (** ** The witness map *)
  Lemma list_tab l n (f : nat -> K) : length l = n -> (forall i, (i < n)%nat -> nth i l 0 = f i) -> l = map f (seq 0 n).
  Proof.
    intros Hl H. apply (nth_ext _ _ 0 0). { rewrite map_length, seq_length. exact Hl. } intros i Hi. rewrite H by lia.
    pose proof (tab_coeff f n i) as T. unfold coeff in T. rewrite T. destruct (Nat.ltb_spec i n); [reflexivity|lia].
  Qed.
  Lemma values_on_nth f (h g : K) n i : (i < n)%nat -> nth i (values_on f h g n) 0 = eval f (h * g ^ i).
  Proof.
    intros Hi. unfold values_on. pose proof (tab_coeff (fun i => eval f (h * g ^ i)) n i) as T. unfold coeff in T. rewrite T.
    destruct (Nat.ltb_spec i n); [reflexivity|lia].
  Qed.
  Lemma coset_domain adicity (root : K) k d gen : radix2_domain adicity root k 1 d -> gen <> 0 ->
    exists cd, get_coset d gen = Some cd /\ radix2_domain adicity root k gen cd.
  Proof.
    intros (d0 & E & H) Hg. apply feqb_neq in Hg. unfold radix2_domain. destruct H as [[_ ->]|H].
    - destruct (get_coset d0 gen) as [cd|] eqn:Ec; [|unfold get_coset in Ec; rewrite Hg in Ec; discriminate]. exists cd. split; [reflexivity|]. exists d0. auto.
    - exists (mk_domain (d_size d0) (d_log d0) (d_size_elem d0) (d_size_inv d0) (d_gen d0) (d_gen_inv d0)
                 gen (finv gen) (do_pow 1 fmul (fun y => y * y) [Z.of_nat (d_size d0)] gen)).
      unfold get_coset in H |- *. destruct (feqb 1 0); [discriminate|]. injection H as <-. cbn [d_size d_log d_size_elem d_size_inv d_gen d_gen_inv].
      split; [rewrite Hg; reflexivity|]. exists d0. split; [exact E|]. right. unfold get_coset. rewrite Hg. reflexivity.
  Qed.
  Lemma witness_map_spec adicity (root : K) k d small threads sched it (gen : K) m z :
    (adicity < 62)%nat -> primitive_root root (2 ^ adicity) -> (k <= adicity)%nat -> radix2_domain adicity root k 1 d -> (m_con m + m_inst m <= 2 ^ k)%nat ->
    (0 < threads < 2 ^ 62)%Z -> schedules sched -> complete_item small false k (generator adicity root k) it -> gen <> 0 -> gen ^ (2 ^ k) <> 1 ->
    well_shaped m -> assignment m z ->
    exists h A B C, witness_map threads sched d it gen m z = Some h /\ canonical h /\ (length h <= 2 ^ k)%nat /\
      qap_polys m z (generator adicity root k) (2 ^ k) A B C /\
      (forall i, (i < 2 ^ k)%nat -> let x := gen * generator adicity root k ^ i in eval A x * eval B x - eval C x = eval h x * (x ^ (2 ^ k) - 1)).
  Proof.
    intros Ha HP Hk HR Hn Ht HS HI Hg0 Hg1 (La & Lb & Lc & Hinst & Hcols) (Lz & Hz0).
    destruct (coset_domain adicity root k d gen HR Hg0) as (cd & Ecd & HRc).
    destruct (rdom_ok K _ _ _ _ _ Ha HP Hk HR) as [HD HG]. set (g := generator adicity root k) in *. set (N := (2 ^ k)%nat) in *.
    assert (Hsize : d_size d = N) by apply (do_size _ _ _ _ _ HD).
    assert (Ca : forall row c, In row (m_a m) -> In c row -> (snd c < length z)%nat) by (intros row c H1 H2; rewrite Lz; apply (Hcols row c); auto; apply in_or_app; auto).
    assert (Cb : forall row c, In row (m_b m) -> In c row -> (snd c < length z)%nat) by (intros row c H1 H2; rewrite Lz; apply (Hcols row c); auto; apply in_or_app; right; apply in_or_app; auto).
    assert (Cc : forall row c, In row (m_c m) -> In c row -> (snd c < length z)%nat) by (intros row c H1 H2; rewrite Lz; apply (Hcols row c); auto; apply in_or_app; right; apply in_or_app; auto).
    unfold witness_map. rewrite Hsize. destruct (Nat.ltb_spec N (m_con m)) as [?|_]; [lia|].
    rewrite (constraint_values_spec (m_a m) (m_con m) z (Nat.eq_le_incl _ _ (eq_sym La)) Ca). rewrite (constraint_values_spec (m_b m) (m_con m) z (Nat.eq_le_incl _ _ (eq_sym Lb)) Cb). rewrite (constraint_values_spec (m_c m) (m_con m) z (Nat.eq_le_incl _ _ (eq_sym Lc)) Cc).
    cbv zeta.
    set (pa := map (fun i => row_value z (nth i (m_a m) [])) (seq 0 (m_con m)) ++ repeat 0 (N - m_con m)).
    set (pb := map (fun i => row_value z (nth i (m_b m) [])) (seq 0 (m_con m)) ++ repeat 0 (N - m_con m)).
    set (pc := map (fun i => row_value z (nth i (m_c m) [])) (seq 0 (m_con m)) ++ repeat 0 (N - m_con m)).
    assert (Lp : length pa = N /\ length pb = N /\ length pc = N).
    { unfold pa, pb, pc. rewrite !app_length, !map_length, !seq_length, !repeat_length. repeat split; lia. }
    destruct Lp as (Lpa & Lpb & Lpc).
    destruct (copy_spec z (m_con m) (m_inst m) 0 pa) as (ea & Eea & Lea & Nea); [lia|lia|].
    match goal with |- context [copy_instances z (m_con m) (m_inst m) 0 ?e] => change e with pa end. rewrite Eea.
    match goal with |- context [match ifft threads sched d it ea with Some _ => match ifft threads sched d it ?eb with Some _ => match ifft threads sched d it ?ec with _ => _ end | _ => _ end | _ => _ end] => change eb with pb; change ec with pc end.
    assert (Va : forall i, (i < N)%nat -> nth i ea 0 = a_value m z i).
    { intros i Hi. rewrite Nea, Nat.add_0_r. unfold pa. rewrite pad_nth by lia. unfold a_value.
      destruct (Nat.leb_spec (m_con m) i), (Nat.ltb_spec i (m_con m + m_inst m)), (Nat.ltb_spec i (m_con m)); cbn [andb]; try lia; reflexivity. }
    assert (Vb : forall i, (i < N)%nat -> nth i pb 0 = b_value m z i) by (intros i Hi; unfold pb, b_value; apply pad_nth; lia).
    assert (Vc : forall i, (i < N)%nat -> nth i pc 0 = c_value m z i) by (intros i Hi; unfold pc, c_value; apply pad_nth; lia).
    destruct (ifft_correct K adicity root k 1 d small threads sched it ea Ha HP Hk HR Ht HS HI ltac:(fold N; lia)) as (A & EA & _ & LA & HA).
    destruct (ifft_correct K adicity root k 1 d small threads sched it pb Ha HP Hk HR Ht HS HI Lpb) as (B & EB & _ & LB & HB).
    destruct (ifft_correct K adicity root k 1 d small threads sched it pc Ha HP Hk HR Ht HS HI Lpc) as (C & EC & _ & LC & HC).
    fold g N in LA, LB, LC, HA, HB, HC. rewrite EA, EB, EC, Ecd.
    assert (HAB : qap_polys m z g N A B C).
    { assert (one : forall i, 1 * g ^ i = g ^ i) by (intros; ring).
      split; [|split]; (split; [assumption|]); intros i Hi.
      - rewrite <- Va, <- HA, values_on_nth, one by auto. reflexivity.
      - rewrite <- Vb, <- HB, values_on_nth, one by auto. reflexivity.
      - rewrite <- Vc, <- HC, values_on_nth, one by auto. reflexivity. }
    assert (FF : forall P, (length P <= N)%nat -> exists e, fft threads sched cd it P = Some e /\ (P <> [] -> length e = N) /\
        forall i, (i < N)%nat -> value_at e i = eval P (gen * g ^ i)).
    { intros P LP. destruct (fft_correct K adicity root k gen cd small threads sched it P Ha HP Hk HRc Ht HS HI) as (F1 & F2 & _).
      fold g N in F1. destruct P as [|p P].
      - exists []. split; [exact F2|]. split; [congruence|]. intros i _. unfold value_at. rewrite eval_nil. destruct i; reflexivity.
      - eexists. split; [apply F1; [exact LP|discriminate]|]. split; [intros _; unfold values_on; rewrite map_length, seq_length; reflexivity|].
        intros i Hi. apply values_on_nth. exact Hi. }
    destruct (FF A LA) as (fa & Efa & Lfa & Vfa). destruct (FF B LB) as (fb & Efb & _ & Vfb). destruct (FF C LC) as (fc & Efc & _ & Vfc).
    rewrite Efa, Efb, Efc.
    assert (HAne : A <> []).
    { intros E. destruct HAB as ((_ & VA) & _). specialize (VA (m_con m) ltac:(lia)). rewrite E, eval_nil in VA. unfold a_value in VA.
      destruct (Nat.ltb_spec (m_con m) (m_con m)); [lia|]. destruct (Nat.ltb_spec (m_con m) (m_con m + m_inst m)); [|lia].
      rewrite Nat.sub_diag, Hz0 in VA. apply (f1_neq_0 K). symmetry. exact VA. }
    rewrite (vanishing_spec' K d k g 1 gen) by (auto; lia). fold N. rewrite fpow_one.
    assert (Hv : gen ^ N - 1 <> 0) by (intros E; exact (Hg1 (proj1 (fsub_eq0 K _ _) E))).
    rewrite (proj2 (feqb_neq K (gen ^ N - 1) 0) Hv).
    rewrite (quotient_spec fa fb fc (finv (gen ^ N - 1)) N (fun i => eval A (gen * g ^ i)) (fun i => eval B (gen * g ^ i)) (fun i => eval C (gen * g ^ i))).
    2:{ auto. } 2:{ intros i Hi. split; [apply Vfa; auto|]. split; [apply Vfb; auto|apply Vfc; auto]. } 2:{ lia. }
    match goal with |- context [ifft threads sched cd it ?e] => set (hv := e) end.
    destruct (ifft_correct K adicity root k gen cd small threads sched it hv Ha HP Hk HRc Ht HS HI) as (h & Eh & Hc & Lh & Vh).
    { unfold hv. rewrite map_length, seq_length. reflexivity. }
    fold g N in Lh, Vh. exists h, A, B, C. split; [exact Eh|]. split; [exact Hc|]. split; [exact Lh|]. split; [exact HAB|].
    intros i Hi. cbv zeta. rewrite <- (values_on_nth h gen g N i Hi). rewrite Vh. unfold hv.
    pose proof (tab_coeff (fun i => (eval A (gen * g ^ i) * eval B (gen * g ^ i) - eval C (gen * g ^ i)) * finv (gen ^ N - 1)) N i) as T. unfold coeff in T. rewrite T.
    destruct (Nat.ltb_spec i N); [|lia].
    assert (Ei : (gen * g ^ i) ^ N = gen ^ N).
    { rewrite fpow_mul_base. rewrite <- fpow_mul, Nat.mul_comm, fpow_mul. destruct HG as [HG1 _]. rewrite HG1, fpow_one. ring. }
    rewrite Ei. field. exact Hv.
  Qed.

  Lemma interpolates_unique A A' (g : K) n (v : nat -> K) x : primitive_root g n -> interpolates A g n v -> interpolates A' g n v -> eval A x = eval A' x.
  Proof.
    intros HG (L & V) (L' & V'). apply fsub_eq0.
    set (D := map (fun i => coeff A i - coeff A' i) (seq 0 n)).
    assert (ED : forall y, eval D y = eval A y - eval A' y).
    { intros y. rewrite (eval_linear K A A' D 1 (- (1))); [ring|]. intros i. unfold D. rewrite tab_coeff. destruct (Nat.ltb_spec i n); [ring|]. rewrite !coeff_over by lia. ring. }
    rewrite <- ED. rewrite (eval_ext K D []); [apply eval_nil|]. intros i. rewrite (coeff_over K []) by (cbn; lia).
    apply (roots_bound K (map (fun i => 1 * g ^ i) (seq 0 n))).
    - apply points_nodup; auto. apply f1_neq_0.
    - unfold D. rewrite !map_length. lia.
    - intros y Hy. apply in_map_iff in Hy. destruct Hy as (j & <- & Hj). apply in_seq in Hj. rewrite ED.
      replace (1 * g ^ j) with (g ^ j) by ring. rewrite V, V' by lia. ring.
  Qed.
  Lemma witness_map_satisfied adicity (root : K) k d small threads sched it (gen : K) m z :
    (adicity < 62)%nat -> primitive_root root (2 ^ adicity) -> (k <= adicity)%nat -> radix2_domain adicity root k 1 d -> (m_con m + m_inst m <= 2 ^ k)%nat ->
    (0 < threads < 2 ^ 62)%Z -> schedules sched -> complete_item small false k (generator adicity root k) it -> gen <> 0 -> gen ^ (2 ^ k) <> 1 ->
    well_shaped m -> assignment m z -> exists h, witness_map threads sched d it gen m z = Some h /\
      (rows_hold m z -> (length h < 2 ^ k)%nat /\
         forall A B C, qap_polys m z (generator adicity root k) (2 ^ k) A B C ->
           forall x, eval A x * eval B x - eval C x = eval h x * (x ^ (2 ^ k) - 1)).
  Proof.
    intros Ha HP Hk HR Hn Ht HS HI Hg0 Hg1 HM HZ.
    destruct (witness_map_spec adicity root k d small threads sched it gen m z Ha HP Hk HR Hn Ht HS HI Hg0 Hg1 HM HZ) as (h & A & B & C & E & Hc & Lh & HQ & Hco).
    destruct (rdom_ok K _ _ _ _ _ Ha HP Hk HR) as [_ HG]. set (g := generator adicity root k) in *. set (N := (2 ^ k)%nat) in *.
    assert (HN : (0 < N)%nat) by (unfold N; pose proof (pow2_1 k); lia).
    exists h. split; [exact E|]. intros Hr. pose proof HQ as ((LA & VA) & (LB & VB) & (LC & VC)).
    assert (H0 : forall i, (2 * N <= i)%nat -> defect A B C h N i = 0) by (intros i Hi; apply (defect_high A B C h N (2 * N)); lia).
    assert (HgN : forall i, (g ^ i) ^ N = 1) by (intros i; destruct HG as [HG1 _]; rewrite <- fpow_mul, Nat.mul_comm, fpow_mul, HG1, fpow_one; reflexivity).
    assert (HD : forall i, coeff (map (defect A B C h N) (seq 0 (2 * N))) i = 0).
    { apply (roots_bound K (map (fun i => 1 * g ^ i) (seq 0 N) ++ map (fun i => gen * g ^ i) (seq 0 N))).
      - apply NoDup_app'.
        + apply points_nodup; auto. apply f1_neq_0.
        + apply points_nodup; auto.
        + intros x H1 H2. apply in_map_iff in H1, H2. destruct H1 as (i & <- & _), H2 as (j & E2 & _). apply Hg1.
          transitivity ((gen * g ^ j) ^ N); [rewrite fpow_mul_base, HgN; ring|]. rewrite E2, fpow_mul_base, HgN, fpow_one. ring.
      - rewrite app_length, !map_length, !seq_length. lia.
      - intros x Hin. rewrite (defect_eval A B C h N (2 * N) x H0). apply in_app_or in Hin.
        destruct Hin as [Hin|Hin]; apply in_map_iff in Hin; destruct Hin as (i & <- & Hi); apply in_seq in Hi.
        + replace (1 * g ^ i) with (g ^ i) by ring. rewrite (rows_on_domain m z g N A B C i HQ Hr) by lia. rewrite HgN. ring.
        + pose proof (Hco i ltac:(lia)) as Q. cbv zeta in Q. rewrite Q. ring. }
    assert (Hid : forall x, eval A x * eval B x - eval C x = eval h x * (x ^ N - 1)).
    { intros x. apply fsub_eq0. rewrite <- (defect_eval A B C h N (2 * N) x H0). rewrite (eval_ext K _ [] _); [apply eval_nil|].
      intros i. rewrite HD. symmetry. apply coeff_over. cbn. lia. }
    split.
    - destruct (Nat.lt_ge_cases (length h) N) as [L|L]; [exact L|exfalso].
      assert (Lh' : length h = N) by lia. apply (canonical_lead K h Hc); [intros E0; rewrite E0 in Lh'; cbn in Lh'; lia|].
      pose proof (HD (2 * N - 1)%nat) as T. rewrite tab_coeff in T. destruct (Nat.ltb_spec (2 * N - 1) (2 * N)); [|lia].
      unfold defect in T. rewrite (pm_high A B N) in T by lia. destruct (Nat.leb_spec N (2 * N - 1)); [|lia].
      replace (2 * N - 1 - N)%nat with (length h - 1)%nat in T by lia.
      rewrite (coeff_over K C), (coeff_over K h (2 * N - 1)) in T by lia.
      transitivity (- (0 - 0 - coeff h (length h - 1) + 0)); [ring|]. rewrite T. ring.
    - intros A' B' C' (QA & QB & QC) x. destruct HQ as (QA' & QB' & QC').
      rewrite (interpolates_unique A' A g N _ x HG QA QA'), (interpolates_unique B' B g N _ x HG QB QB'), (interpolates_unique C' C g N _ x HG QC QC').
      apply Hid.
  Qed.
End QapProof2.
