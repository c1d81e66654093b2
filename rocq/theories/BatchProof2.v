(** Forward and inverse transforms of matrices; low-degree extension. *)
From Coq Require Import ZArith List Bool Lia Arith Permutation Ring Field Field_theory.
From Verif Require Import Field BigIntModel BitsModel BitsProof BitsSpec BitsExtra ParallelizeModel ParallelizeSpec ParallelizeProof ParallelizeExtra
  SemigroupModel SemigroupSpec SemigroupProof SemigroupExtra PolyModel PolySpec PolyProof PolyProof3 PolyProof4 FFTModel FFTSpec FFTProof FFTProof2 FFTProof3 FFTProof4 FFTProof5
  FFTExtra BatchProof BatchSpec.
Import ListNotations.
Open Scope nat_scope.

Lemma NoDup_app' {A} (l1 l2 : list A) : NoDup l1 -> NoDup l2 -> (forall x, In x l1 -> ~ In x l2) -> NoDup (l1 ++ l2).
Proof.
  induction l1 as [|x l1 IH]; intros H1 H2 H; cbn [app]; [exact H2|]. inversion H1 as [|? ? N1 N2]; subst. constructor.
  - rewrite in_app_iff. intros [E|E]; [contradiction|]. apply (H x (or_introl eq_refl) E).
  - apply IH; auto. intros y Hy. apply H. right. auto.
Qed.
(** Updating single rows, each once. *)
Lemma single_run {A B} (f : A -> B -> A) (pos : B -> nat) n (step : list A -> B -> option (list A)) : 
  (forall (F : nat -> A) b, pos b < n -> step (tab F n) b = Some (tab (fun x => if x =? pos b then f (F x) b else F x) n)) ->
  forall bs (F G : nat -> A), NoDup (map pos bs) ->
  (forall b, In b bs -> pos b < n /\ G (pos b) = f (F (pos b)) b) ->
  (forall x, x < n -> ~ In x (map pos bs) -> G x = F x) ->
  ofold step bs (tab F n) = Some (tab G n).
Proof.
  intros HS. induction bs as [|b bs IH]; intros F G HN HG HO.
  - cbn [ofold]. f_equal. apply tab_ext. intros x Hx. symmetry. apply HO; auto.
  - cbn [map] in HN. inversion HN as [|? ? N1 N2]; subst. destruct (HG b (or_introl eq_refl)) as [Hb Eb].
    cbn [ofold]. rewrite HS by auto. apply IH; [auto| |].
    + intros b' Hb'. destruct (HG b' (or_intror Hb')) as [H1 H2]. split; [auto|].
      destruct (Nat.eqb_spec (pos b') (pos b)) as [E|]; [|auto]. exfalso. apply N1. rewrite <- E. apply in_map. auto.
    + intros x Hx Hn. destruct (Nat.eqb_spec x (pos b)) as [->|Ne]; [auto|]. apply HO; auto. cbn [map]. intros [E|E]; congruence.
Qed.
Lemma ofold_inv {A B} (P : A -> Prop) (f g : A -> B -> option A) l : (forall a x, P a -> In x l -> f a x = g a x /\ forall a', f a x = Some a' -> P a') ->
  forall a, P a -> ofold f l a = ofold g l a.
Proof.
  intros H. assert (HI : forall l', incl l' l -> forall a, P a -> ofold f l' a = ofold g l' a); [|apply HI; apply incl_refl].
  induction l' as [|x l' IH]; intros Hi a Ha; cbn [ofold]; [reflexivity|].
  destruct (H a x Ha (Hi x (or_introl eq_refl))) as [E HP]. rewrite <- E. destruct (f a x) eqn:Ef; [|reflexivity].
  apply IH; [intros y Hy; apply Hi; right; auto|apply HP; auto].
Qed.

Section Batch2.
  Variable K : fld.
  Add Field Kb2 : (fld_theory K).
  Open Scope fld_scope.
  Implicit Types (g h w shift root : K) (d : domain K) (it : item K) (mat : list (list K)).

  Lemma matrix_rows rows cols (f : nat -> nat -> K) : is_matrix rows cols (matrix rows cols f).
  Proof.
    split; [apply tab_length|]. apply Forall_forall. intros r Hr. apply in_map_iff in Hr. destruct Hr as (i & <- & _). apply tab_length.
  Qed.
  Lemma matrix_eta rows cols mat : is_matrix rows cols mat -> mat = matrix rows cols (entry mat).
  Proof.
    intros [HL HF]. unfold matrix. rewrite <- HL. rewrite (list_tab [] mat) at 1. apply tab_ext. intros i Hi.
    rewrite Forall_forall in HF. specialize (HF (nth i mat []) (nth_In mat [] Hi)). rewrite <- HF. unfold entry. apply (list_tab (0 : K)).
  Qed.
  Lemma matrix_entry rows cols (f : nat -> nat -> K) i c : (i < rows)%nat -> (c < cols)%nat -> entry (matrix rows cols f) i c = f i c.
  Proof.
    intros Hi Hc. unfold entry, matrix. rewrite (nth_error_nth (tab (fun i => map (fun c => f i c) (seq 0 cols)) rows) i [] (tab_nth (fun i => map (fun c => f i c) (seq 0 cols)) rows i Hi)).
    apply (nth_error_nth _ c 0). apply tab_nth. auto.
  Qed.
  Lemma column_coeff rows cols mat c i : is_matrix rows cols mat -> coeff (column mat c) i = entry mat i c.
  Proof.
    intros _. unfold coeff, column, entry.
    destruct (Nat.lt_ge_cases i (length mat)) as [H|H].
    - rewrite (nth_indep _ 0 (nth c [] (0 : K))) by (rewrite map_length; auto). apply (map_nth (fun r => nth c r 0)).
    - rewrite (nth_overflow mat) by auto. rewrite nth_overflow by (rewrite map_length; auto). destruct c; reflexivity.
  Qed.
  Lemma matrix_ext rows cols (f f' : nat -> nat -> K) : (forall i c, (i < rows)%nat -> (c < cols)%nat -> f i c = f' i c) -> matrix rows cols f = matrix rows cols f'.
  Proof. intros H. apply tab_ext. intros i Hi. apply tab_ext. intros c Hc. auto. Qed.

  (** The transform as an evaluation. *)
  Lemma dft_eval cols k w (A : nat -> nat -> K) mat : is_matrix (2 ^ k) cols mat -> (forall i c, (i < 2 ^ k)%nat -> (c < cols)%nat -> A i c = entry mat i c) ->
    forall p, vdft K cols A w k p = map (fun c => eval (column mat c) (w ^ p)) (seq 0 cols).
  Proof.
    intros HM HA p. unfold vdft. apply tab_ext. intros c Hc. rewrite (eval_coeffs K _ _ (2 ^ k)) by (unfold column; rewrite map_length; destruct HM as [-> _]; lia).
    apply fsum_map_ext. intros m Hm. apply in_seq in Hm. rewrite (column_coeff (2 ^ k) cols) by auto. rewrite HA by (auto; lia). rewrite <- fpow_mul. reflexivity.
  Qed.

  Section Domain.
    Variables (adicity : nat) (root : K) (k : nat) (h : K) (d : domain K) (cols : nat).
    Hypothesis Ha : (adicity < 62)%nat.
    Hypothesis HP : primitive_root root (2 ^ adicity).
    Hypothesis Hk : (0 < k <= adicity)%nat.
    Hypothesis HR : radix2_domain adicity root k h d.
    Notation g := (generator adicity root k).
    Variables (small : bool) (sched : scheduler) (it : item K) (po : bool).
    Hypothesis HS : schedules sched.
    Hypothesis Hsm : small = true.
    Hypothesis HI : complete_item small po k g it.
    Hypothesis Hne : it_roots it <> [].

    Lemma roots_nonempty : Nat.ltb 0 (length (it_roots it)) = true.
    Proof. destruct (it_roots it); [congruence|reflexivity]. Qed.
    Lemma gate_ok mat : length mat = (2 ^ k)%nat -> Nat.ltb 0 (length (it_roots it)) && Nat.eqb (d_size d) (length mat) = true.
    Proof.
      intros HL. destruct (rdom_ok K _ _ _ _ _ Ha HP (proj2 Hk) HR) as [HD HG]. rewrite roots_nonempty, (do_size _ _ _ _ _ HD), HL, Nat.eqb_refl. reflexivity.
    Qed.
    Lemma tables : 
      last (it_roots it) [] = tab (fun j => g ^ j) (2 ^ (k - 1)) /\ hd [] (it_inv it) = tab (fun j => (finv g) ^ j) (2 ^ (k - 1)) /\
      it_bitrev it = tab (fun j => g ^ brev (k - 1) j) (2 ^ (k - 1)) /\ it_bitrev_inv it = tab (fun j => (finv g) ^ brev (k - 1) j) (2 ^ (k - 1)).
    Proof.
      destruct HI as [_ H]. destruct (H (proj1 Hk)) as (H1 & H2 & H3). destruct (H3 Hsm) as [H4 H5]. do 2 (split; [assumption|]).
      split; [rewrite H4|rewrite H5]; apply tab_ext; intros j _; rewrite brev_Z, Nat2Z.id; reflexivity.
    Qed.

    Lemma fft_batch_spec mat : is_matrix (2 ^ k) cols mat ->
      fft_batch row_bf sched d it mat = Some (matrix (2 ^ k) cols (fun i c => eval (column mat c) (g ^ i))).
    Proof.
      intros HM. destruct (rdom_ok K _ _ _ _ _ Ha HP (proj2 Hk) HR) as [HD HG]. pose proof (primitive_unity K _ _ HG) as HU.
      destruct tables as (T1 & _ & T3 & _). unfold fft_batch. rewrite gate_ok by apply HM. rewrite T1, T3.
      rewrite (matrix_eta _ _ mat HM) at 1. unfold matrix at 1. rewrite reverse_rows_tab by (auto; lia).
      destruct (core_run K cols sched 1 2 3 d (entry mat) g k HS ltac:(lia) HU (do_log _ _ _ _ _ HD) (do_size _ _ _ _ _ HD)) as (m1 & m2 & E1 & E2 & E3).
      rewrite E1, E2, E3, reverse_rows_tab by (auto; lia). f_equal. apply tab_ext. intros i Hi. rewrite brev_invol by auto.
      apply (dft_eval cols k g (entry mat) mat HM). auto.
    Qed.
    Lemma fft_batch_wrong mat : length mat <> (2 ^ k)%nat -> fft_batch row_bf sched d it mat = None.
    Proof.
      intros HL. destruct (rdom_ok K _ _ _ _ _ Ha HP (proj2 Hk) HR) as [HD HG]. unfold fft_batch. rewrite (do_size _ _ _ _ _ HD).
      replace (Nat.eqb (2 ^ k) (length mat)) with false by (symmetry; apply Nat.eqb_neq; auto). rewrite andb_false_r. reflexivity.
    Qed.

    Lemma scale_row_tab n v (F : nat -> list K) r : (r < n)%nat ->
      scale_row row_scale v (tab F n) r = Some (tab (fun x => if Nat.eqb x r then row_scale (F x) v else F x) n).
    Proof using Type.
      intros H. unfold scale_row. rewrite tab_nth, set_nth_tab by auto. f_equal. apply tab_ext. intros x _.
      destruct (Nat.eqb_spec x r) as [->|]; reflexivity.
    Qed.
    (** Row i of the inverse transform comes from row (n - i) mod n. *)
    Lemma ifft_batch_raw mat : is_matrix (2 ^ k) cols mat ->
      ifft_batch row_bf row_scale sched d it mat =
      Some (matrix (2 ^ k) cols (fun i c => eval (column mat c) (g ^ (if Nat.eqb i 0 then 0 else 2 ^ k - i)) * finv (fnat (2 ^ k)))).
    Proof.
      intros HM. destruct (rdom_ok K _ _ _ _ _ Ha HP (proj2 Hk) HR) as [HD HG]. unfold ifft_batch. rewrite fft_batch_spec by auto.
      unfold matrix. rewrite !tab_length. cbv zeta. rewrite (proj2 (feqb_neq K _ _) (do_elem_nz _ _ _ _ _ HD)).
      set (n := (2 ^ k)%nat) in *. set (inv := finv (fnat n)).
      assert (En : n = (2 * 2 ^ (k - 1))%nat) by (unfold n; replace k with (S (k - 1)) at 1 by lia; reflexivity).
      set (hf := (2 ^ (k - 1))%nat) in *. assert (Hh : (0 < hf)%nat) by (pose proof (pow2_1 (k - 1)); unfold hf; lia).
      assert (Ed : Nat.div n 2 = hf) by (rewrite En, Nat.mul_comm; apply Nat.div_mul; lia).
      set (R := fun i => map (fun c => eval (column mat c) (g ^ i)) (seq 0 cols)).
      change (fun i => map (fun c => eval (column mat c) (g ^ i)) (seq 0 cols)) with R.
      rewrite scale_row_tab by lia. rewrite tab_length, Ed, scale_row_tab by lia. rewrite tab_length, Ed.
      set (F := fun x => if Nat.eqb x hf then row_scale (if Nat.eqb x 0 then row_scale (R x) inv else R x) inv else if Nat.eqb x 0 then row_scale (R x) inv else R x).
      change (fun x => if Nat.eqb x hf then row_scale (if Nat.eqb x 0 then row_scale (R x) inv else R x) inv else if Nat.eqb x 0 then row_scale (R x) inv else R x) with F.
      set (ops := seq 1 (hf - 1)).
      rewrite (ofold_inv (fun m => length m = n) _ (fun m r => bfly (fun x y (_ : unit) => (row_scale y inv, row_scale x inv)) m (r, (n - r)%nat, Some tt))).
      2:{ intros m r Hm Hr. split.
          - unfold scale_swap, bfly. rewrite Hm. destruct (nth_error m r); [|reflexivity]. destruct (nth_error m (n - r)); reflexivity.
          - intros m'. unfold scale_swap. destruct (nth_error m r); [|discriminate]. destruct (nth_error m (length m - r)); [|discriminate].
            intros E. injection E as <-. rewrite !set_nth_length. auto. }
      2:{ apply tab_length. }
      rewrite <- (ofold_map (bfly (fun x y (_ : unit) => (row_scale y inv, row_scale x inv))) (fun r => (r, (n - r)%nat, Some tt))).
      apply bfly_run.
      - pose proof (HS _ 5%nat ops) as P.
        assert (P2 : Permutation (flat_map touched (map (fun r => (r, (n - r)%nat, Some tt)) (sched nat 5%nat ops))) (flat_map (fun r => [r; (n - r)%nat]) ops)).
        { rewrite flat_map_map. unfold touched. cbn [fst snd]. apply Permutation_flat_map. symmetry. exact P. }
        eapply Permutation_NoDup; [symmetry; exact P2|]. eapply Permutation_NoDup; [symmetry; apply (flat_map_pair (fun r => r) (fun r => (n - r)%nat))|].
        rewrite map_id. apply NoDup_app'; [apply seq_NoDup| |].
        + apply SemigroupProof.NoDup_map_in; [apply seq_NoDup|]. intros x y Hx Hy. unfold ops in *. apply in_seq in Hx. apply in_seq in Hy. lia.
        + intros x Hx Hy. apply in_map_iff in Hy. destruct Hy as (y & <- & Hy). unfold ops in *. apply in_seq in Hx. apply in_seq in Hy. lia.
      - intros lo hi r Hin. apply in_map_iff in Hin. destruct Hin as (r0 & E & Hin). inversion E; subst lo hi r.
        apply (Permutation_in _ (Permutation_sym (HS _ 5%nat ops))) in Hin. unfold ops in Hin. apply in_seq in Hin.
        split; [lia|]. split; [lia|]. exists tt. split; [reflexivity|]. cbv beta.
        assert (EF : forall x, x <> hf -> x <> 0%nat -> F x = R x).
        { intros x H1 H2. unfold F. rewrite (proj2 (Nat.eqb_neq _ _) H1), (proj2 (Nat.eqb_neq _ _) H2). reflexivity. }
        rewrite !EF by lia. replace (Nat.eqb r0 0) with false by (symmetry; apply Nat.eqb_neq; lia). replace (Nat.eqb (n - r0) 0) with false by (symmetry; apply Nat.eqb_neq; lia).
        unfold row_scale, R. rewrite !map_map. f_equal. replace (n - (n - r0))%nat with r0 by lia. reflexivity.
      - intros x Hx Hn. assert (x = 0%nat \/ x = hf) as Hc.
        { destruct (Nat.eq_dec x 0) as [|N0]; [auto|]. destruct (Nat.eq_dec x hf) as [|N1]; [auto|]. exfalso. apply Hn.
          rewrite flat_map_map. apply in_flat_map. unfold touched. cbn [fst snd].
          destruct (Nat.lt_ge_cases x hf) as [L|L].
          - exists x. split; [|left; auto]. apply (Permutation_in _ (HS _ 5%nat ops)). apply in_seq. lia.
          - exists (n - x)%nat. split; [|right; left; lia]. apply (Permutation_in _ (HS _ 5%nat ops)). apply in_seq. lia. }
        unfold F. destruct Hc as [-> | ->].
        + replace (Nat.eqb 0 hf) with false by (symmetry; apply Nat.eqb_neq; lia). cbn [Nat.eqb]. unfold row_scale, R. rewrite map_map. reflexivity.
        + rewrite Nat.eqb_refl. replace (Nat.eqb hf 0) with false by (symmetry; apply Nat.eqb_neq; lia). unfold row_scale, R. rewrite map_map.
          replace (n - hf)%nat with hf by lia. reflexivity.
    Qed.
    Lemma gen_rev i : (i < 2 ^ k)%nat -> g ^ (if Nat.eqb i 0 then 0 else 2 ^ k - i) = (finv g) ^ i.
    Proof.
      intros Hi. destruct (rdom_ok K _ _ _ _ _ Ha HP (proj2 Hk) HR) as [HD HG]. pose proof (primitive_unity K _ _ HG) as HU.
      assert (Hg : g <> 0) by (apply (unity_neq0 K k); auto). rewrite fpow_finv by auto.
      destruct (Nat.eqb_spec i 0) as [->|N]; [cbn [fpow]; apply finv_unique; ring|].
      apply finv_unique. rewrite <- fpow_add. replace (i + (2 ^ k - i))%nat with (2 ^ k)%nat by lia. apply HG.
    Qed.
    Lemma ifft_batch_spec mat : is_matrix (2 ^ k) cols mat ->
      exists out, ifft_batch row_bf row_scale sched d it mat = Some out /\ is_matrix (2 ^ k) cols out /\
        forall i c, (i < 2 ^ k)%nat -> (c < cols)%nat -> eval (column out c) (g ^ i) = entry mat i c.
    Proof.
      intros HM. destruct (rdom_ok K _ _ _ _ _ Ha HP (proj2 Hk) HR) as [HD HG]. eexists. split; [apply ifft_batch_raw; auto|]. split; [apply matrix_rows|].
      intros i c Hi Hc. set (out := matrix _ _ _).
      assert (HO : is_matrix (2 ^ k) cols out) by apply matrix_rows.
      assert (HL : length (column mat c) = (2 ^ k)%nat) by (unfold column; rewrite map_length; apply HM).
      pose proof (inverse_values K k g 1 (column mat c) HG (f1_neq_0 K) HL) as V.
      assert (N : nth_error (column mat c) i = Some (entry mat i c)).
      { rewrite <- (column_coeff (2 ^ k) cols mat c i HM). unfold coeff. apply nth_error_nth'. lia. }
      rewrite <- V in N. unfold values_on in N. rewrite tab_nth in N by auto. injection N as N. rewrite <- N. replace (1 * g ^ i) with (g ^ i) by ring.
      apply eval_ext. intros j. rewrite remove_high_coeff, coeff_map_seq. rewrite (column_coeff (2 ^ k) cols out c j HO).
      destruct (Nat.ltb_spec j (2 ^ k)) as [Hj|Hj].
      - unfold out. rewrite matrix_entry by auto. rewrite gen_rev by auto. rewrite (eval_coeffs K _ _ (2 ^ k)) by lia. unfold inverse_coeff.
        replace (finv 1 ^ j) with (1 : K) by (replace (finv 1) with (1 : K) by (apply finv_unique; ring); symmetry; apply fpow_one).
        rewrite (fsum_map_ext K _ (fun t => coeff (column mat c) t * finv g ^ (j * t))) by (intros; rewrite <- fpow_mul; reflexivity). ring.
      - unfold entry. rewrite (nth_overflow out) by (destruct HO as [-> _]; auto). destruct c; reflexivity.
    Qed.
  End Domain.
End Batch2.
