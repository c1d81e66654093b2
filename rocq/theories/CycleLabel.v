(** The labels of the cells are pairwise different, and the permutation columns therefore encode the cycles. *)
From Coq Require Import List Arith Lia ZArith Znumtheory Ring Field Field_theory.
From Verif Require Import Field FFTSpec CycleModel CycleSpec CycleProof CycleExtra CycleLabelModel.
Import ListNotations.
Open Scope nat_scope.

Section Label.
  Variable K : fld.
  Add Field Kclab : (fld_theory K).
  Open Scope fld_scope.

  Lemma order_divides (g : K) n m : (0 < n)%nat -> primitive_root g n -> g ^ m = 1 -> Nat.divide n m.
  Proof.
    intros Hn [E Hne] Hm. assert (Hr : g ^ (m mod n)%nat = 1).
    { rewrite (Nat.div_mod m n) in Hm by lia. rewrite fpow_add, fpow_mul, E, fpow_one in Hm. rewrite <- Hm. ring. }
    pose proof (Nat.mod_upper_bound m n ltac:(lia)). destruct (Nat.eq_dec (m mod n) 0) as [E0|N0]; [now apply Nat.mod_divide; [lia|]|].
    exfalso. apply (Hne (m mod n)%nat); [lia|exact Hr].
  Qed.
  Lemma root_neq0 (g : K) n : (0 < n)%nat -> g ^ n = 1 -> g <> 0.
  Proof. intros Hn E ->. rewrite fpow_0 in E by exact Hn. apply (f1_neq_0 K). now symmetry. Qed.

  Lemma pow_cancel (w : K) a b : w <> 0 -> (a <= b)%nat -> w ^ a = w ^ b -> w ^ (b - a)%nat = 1.
  Proof.
    intros W H E. replace b with (a + (b - a))%nat in E by lia. rewrite fpow_add in E. assert (N : w ^ a <> 0) by (now apply fpow_neq0).
    transitivity ((w ^ a * w ^ (b - a)%nat) / w ^ a); [field; exact N|]. rewrite <- E. field. exact N.
  Qed.

  Lemma gauss_odd : forall T k d, Nat.Odd T -> Nat.divide T (d * 2 ^ k) -> Nat.divide T d.
  Proof.
    intros T k d Od H. induction k as [|k IH]; [now rewrite Nat.pow_0_r, Nat.mul_1_r in H|]. apply IH. apply (Nat.gauss T 2).
    - rewrite Nat.pow_succ_r' in H. replace (2 * (d * 2 ^ k))%nat with (d * (2 * 2 ^ k))%nat by lia. exact H.
    - destruct Od as [q ->]. assert (D : Nat.divide (Nat.gcd (2 * q + 1) 2) 1). { apply (Nat.divide_add_cancel_r _ (2 * q)); [apply Nat.divide_mul_l, Nat.gcd_divide_r|apply Nat.gcd_divide_l]. }
      now apply Nat.divide_1_r.
  Qed.

  (** Two labels are equal only for the same cell. *)
  Lemma labels_distinct (g omega : K) T s k : Nat.Odd T -> (k <= s)%nat -> primitive_root g (T * 2 ^ s) -> primitive_root omega (2 ^ k) ->
    forall c r c' r', (c < T)%nat -> (c' < T)%nat -> (r < 2 ^ k)%nat -> (r' < 2 ^ k)%nat ->
      get_delta g s ^ c * omega ^ r = get_delta g s ^ c' * omega ^ r' -> c = c' /\ r = r'.
  Proof.
    intros Od Hk Hg Ho. set (delta := get_delta g s).
    assert (P : forall n, (0 < 2 ^ n)%nat) by (intros n; pose proof (Nat.pow_nonzero 2 n); lia).
    assert (NT : (0 < T * 2 ^ s)%nat) by (destruct Od as [q ->]; pose proof (P s); nia).
    assert (G0 : g <> 0) by (apply (root_neq0 g _ NT), Hg). assert (O0 : omega <> 0) by (apply (root_neq0 omega _ (P k)), Ho).
    assert (D0 : delta <> 0) by (now apply fpow_neq0).
    assert (W : forall c r c' r', (c <= c')%nat -> (c' < T)%nat -> (r < 2 ^ k)%nat -> (r' < 2 ^ k)%nat -> delta ^ c * omega ^ r = delta ^ c' * omega ^ r' -> c = c' /\ r = r').
    { intros c r c' r' Hc Hc' Hr Hr' E.
      assert (En : (delta ^ c * omega ^ r) ^ (2 ^ k)%nat = (delta ^ c' * omega ^ r') ^ (2 ^ k)%nat) by (now rewrite E).
      rewrite !fpow_mul_base in En. rewrite <- !(fpow_mul K omega) in En. rewrite (Nat.mul_comm r), (Nat.mul_comm r') in En. rewrite !fpow_mul, (proj1 Ho), !fpow_one in En.
      rewrite <- !fpow_mul in En. assert (Ec : delta ^ (c * 2 ^ k)%nat = delta ^ (c' * 2 ^ k)%nat). { transitivity (delta ^ (c * 2 ^ k)%nat * 1); [ring|]. rewrite En. ring. }
      apply pow_cancel in Ec; [|exact D0|apply Nat.mul_le_mono_r; exact Hc]. rewrite <- Nat.mul_sub_distr_r in Ec. unfold delta, get_delta in Ec. rewrite <- fpow_mul in Ec.
      apply (order_divides g _ _ NT Hg) in Ec. assert (Dv : Nat.divide T ((c' - c) * 2 ^ k)%nat).
      { destruct Ec as [z Ez]. exists z. pose proof (P s) as Ps. apply (Nat.mul_cancel_l _ _ (2 ^ s)%nat); [lia|]. rewrite Ez. ring. }
      apply gauss_odd in Dv; [|exact Od]. assert (Ecc : c = c').
      { destruct Dv as [z Ez]. destruct z as [|z]; [cbn in Ez; lia|]. exfalso. cbn in Ez. lia. }
      split; [exact Ecc|]. subst c'. assert (Er : omega ^ r = omega ^ r').
      { assert (N : delta ^ c <> 0) by (now apply fpow_neq0). transitivity ((delta ^ c * omega ^ r) / delta ^ c); [field; exact N|]. rewrite E. field. exact N. }
      destruct (Nat.le_gt_cases r r') as [L|L].
      - destruct (Nat.eq_dec r r') as [|Nr]; [assumption|]. apply pow_cancel in Er; [|exact O0|exact L]. exfalso. apply (proj2 Ho (r' - r)%nat); [lia|exact Er].
      - symmetry in Er. apply pow_cancel in Er; [|exact O0|lia]. exfalso. apply (proj2 Ho (r - r')%nat); [lia|exact Er]. }
    intros c r c' r' Hc Hc' Hr Hr' E. destruct (Nat.le_gt_cases c c') as [L|L]; [now apply W|]. destruct (W c' r' c r) as [-> ->]; auto; lia.
  Qed.

  (** The table holds the labels. *)
  Lemma next_columns_get (delta : K) : forall n col i, (i < n)%nat -> nth_error (next_columns delta col n) i = Some (map (fun x => x * delta ^ (S i)) col).
  Proof.
    induction n as [|n IH]; intros col i H; [lia|]. cbn [next_columns]. destruct i as [|i]; cbn [nth_error].
    - f_equal. apply map_ext. intros x. cbn [fpow]. ring.
    - rewrite IH by lia. rewrite map_map. f_equal. apply map_ext. intros x. cbn [fpow]. ring.
  Qed.
  Lemma table_get (delta omega : K) cols rows c r : (c < cols)%nat -> (r < rows)%nat -> tget (unpermuted_table delta omega cols rows) (c, r) = Some (delta ^ c * omega ^ r).
  Proof.
    intros Hc Hr. unfold tget, unpermuted_table. cbn [fst snd].
    assert (P : nth_error (map (fun j => omega ^ j) (seq 0 rows)) r = Some (omega ^ r)).
    { rewrite nth_error_map, (nth_error_nth' (seq 0 rows) 0%nat) by (now rewrite seq_length). rewrite seq_nth by exact Hr. reflexivity. }
    destruct c as [|c]; cbn [nth_error].
    - rewrite P. f_equal. cbn [fpow]. ring.
    - rewrite next_columns_get by lia. rewrite nth_error_map, P. cbn [option_map]. f_equal. ring.
  Qed.

  Lemma perms_get : forall (A : Type) (f : nat -> option A) (n a : nat), (forall i, (a <= i < a + n)%nat -> exists x, f i = Some x) ->
    exists l, fold_right (fun i acc => match f i, acc with Some c, Some r => Some (c :: r) | _, _ => None end) (Some []) (seq a n) = Some l /\ length l = n /\
      forall i, (i < n)%nat -> nth_error l i = f (a + i)%nat.
  Proof.
    induction n as [|n IH]; intros a H; [exists []; repeat split; intros; lia|].
    cbn [seq fold_right]. destruct (H a ltac:(lia)) as (x & Ex). rewrite Ex. destruct (IH (S a)) as (l & E & L & G); [intros i Hi; apply H; lia|]. rewrite E.
    exists (x :: l). split; [reflexivity|]. split; [cbn; now rewrite L|]. intros [|i] Hi; cbn [nth_error]; [now rewrite Nat.add_0_r|]. rewrite G by lia. f_equal. lia.
  Qed.

  Theorem permutation_columns (g omega : K) T s k cols pairs :
    Nat.Odd T -> (k <= s)%nat -> primitive_root g (T * 2 ^ s) -> primitive_root omega (2 ^ k) -> (0 < cols <= T)%nat ->
    Forall (fun p => in_grid cols (2 ^ k) (fst p) /\ in_grid cols (2 ^ k) (snd p)) pairs ->
    let delta := get_delta g s in let value := fun l : label => delta ^ fst l * omega ^ snd l in
    exists xs st perms,
      merge_all (create cols (2 ^ k)) pairs = Some (xs, st) /\
      generate_permutations (unpermuted_table delta omega cols (2 ^ k)) st cols (2 ^ k) = Some perms /\
      (forall a b, in_grid cols (2 ^ k) a -> in_grid cols (2 ^ k) b -> value a = value b -> a = b) /\
      (forall a, in_grid cols (2 ^ k) a -> exists b, in_grid cols (2 ^ k) b /\ tget perms a = Some (value b) /\ connected pairs a b) /\
      (forall a b, in_grid cols (2 ^ k) a -> in_grid cols (2 ^ k) b -> tget perms a = tget perms b -> a = b) /\
      (forall (V : Type) (v : label -> V), (forall a b, In (a, b) pairs -> v a = v b) <->
         (forall a b, in_grid cols (2 ^ k) a -> in_grid cols (2 ^ k) b -> tget perms a = Some (value b) -> v a = v b)).
  Proof.
    intros Od Hk Hg Ho Hc HF delta value.
    destruct (cycle_store_correct cols (2 ^ k) pairs HF) as (xs & st & E & _ & _ & Tot & Inj & Re & _).
    destruct (copy_constraints cols (2 ^ k) pairs HF) as (xs' & st' & E' & CC). rewrite E in E'. injection E' as <- <-.
    assert (Dist : forall a b, in_grid cols (2 ^ k) a -> in_grid cols (2 ^ k) b -> value a = value b -> a = b).
    { intros [c r] [c' r'] [H1 H2] [H3 H4] Ev. cbn [fst snd] in *. destruct (labels_distinct g omega T s k Od Hk Hg Ho c r c' r') as [-> ->]; auto; lia. }
    set (tbl := unpermuted_table delta omega cols (2 ^ k)).
    set (row := fun i => fold_right (fun j acc => match get_next_label st (i, j), acc with
                                        | Some l, Some r => match tget tbl l with Some x => Some (x :: r) | None => None end
                                        | _, _ => None
                                        end) (Some []) (seq 0 (2 ^ k)%nat)).
    set (cell := fun i j => match get_next_label st (i, j) with Some l => tget tbl l | None => None end).
    assert (Cell : forall a, in_grid cols (2 ^ k) a -> exists b, get_next_label st a = Some b /\ in_grid cols (2 ^ k) b /\ cell (fst a) (snd a) = Some (value b)).
    { intros [c r] Ga. destruct (Tot (c, r) Ga) as ([c' r'] & Eb & Gb). exists (c', r'). split; [exact Eb|]. split; [exact Gb|]. unfold cell. cbn [fst snd]. rewrite Eb. apply table_get; apply Gb. }
    assert (Row : forall i, (i < cols)%nat -> exists l, row i = Some l /\ forall j, (j < 2 ^ k)%nat -> nth_error l j = cell i j).
    { intros i Hi. destruct (perms_get _ (cell i) (2 ^ k)%nat 0%nat) as (l & El & _ & Gl).
      { intros j Hj. destruct (Cell (i, j)) as (b & _ & _ & Eb); [split; cbn; lia|]. exists (value b). exact Eb. }
      exists l. split; [|exact Gl]. rewrite <- El. unfold row, cell. clear. induction (seq 0 (2 ^ k)%nat) as [|j js IH]; [reflexivity|]. cbn [fold_right]. rewrite IH.
      destruct (get_next_label st (i, j)) as [l|]; [|reflexivity]. destruct (tget tbl l); [reflexivity|]. match goal with |- match ?X with _ => _ end = _ => now destruct X end. }
    destruct (perms_get _ row cols 0%nat) as (perms & Ep & _ & Gp). { intros i Hi. destruct (Row i) as (l & El & _); [lia|]. now exists l. }
    assert (Get : forall a, in_grid cols (2 ^ k) a -> tget perms a = cell (fst a) (snd a)).
    { intros [i j] [Hi Hj]. cbn [fst snd] in *. unfold tget. cbn [fst snd]. rewrite Gp by exact Hi. cbn [Nat.add]. destruct (Row i Hi) as (l & El & Gl). rewrite El. now apply Gl. }
    exists xs, st, perms. split; [exact E|]. split; [exact Ep|]. split; [exact Dist|]. split; [|split].
    - intros a Ga. destruct (Cell a Ga) as (b & Eb & Gb & Ec). exists b. split; [exact Gb|]. split; [now rewrite Get|]. apply Re; auto. econstructor; [exact Eb|constructor].
    - intros a b Ga Gb H. rewrite !Get in H by assumption. destruct (Cell a Ga) as (a' & Ea & Ga' & Ca). destruct (Cell b Gb) as (b' & Eb & Gb' & Cb).
      rewrite Ca, Cb in H. injection H as H. apply Dist in H; auto. subst b'. exact (Inj a b a' Ga Gb Ea Eb).
    - intros V v. rewrite (CC V v). split; intros H a b Ga.
      + intros Gb Hab. destruct (Cell a Ga) as (b' & Eb & Gb' & Ec). rewrite Get, Ec in Hab by exact Ga. injection Hab as Hab. apply Dist in Hab; auto. subst b'. now apply H.
      + intros Eb. destruct (Cell a Ga) as (b' & Eb' & Gb' & Ec). rewrite Eb in Eb'. injection Eb' as <-. apply H; auto. now rewrite Get.
  Qed.
End Label.
