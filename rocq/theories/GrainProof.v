(** The sequence: polynomials over GF(2) acting on sequences, and the proof that the first bits of the pairs are
    not zero 80 times in a row. *)
From Coq Require Import ZArith List Bool Lia.
From Verif Require Import BigIntSpec GrainModel GrainSpec.
Import ListNotations.
Open Scope nat_scope.

Fixpoint ap (p : list bool) (b : nat -> bool) (i : nat) : bool :=
  match p with
  | [] => false
  | c :: r => if c then xorb (b i) (ap r b (S i)) else ap r b (S i)
  end.
Fixpoint padd (p q : list bool) : list bool :=
  match p, q with
  | [], _ => q
  | _, [] => p
  | x :: p', y :: q' => xorb x y :: padd p' q'
  end.
Fixpoint pmul (p q : list bool) : list bool :=
  match p with
  | [] => []
  | c :: r => if c then padd q (false :: pmul r q) else false :: pmul r q
  end.

Lemma ap_add : forall p q b i, ap (padd p q) b i = xorb (ap p b i) (ap q b i).
Proof.
  induction p as [|x p IH]; intros q b i; cbn [padd ap].
  - destruct (ap q b i); reflexivity.
  - destruct q as [|y q]; cbn [padd ap].
    + rewrite xorb_false_r. reflexivity.
    + rewrite IH. destruct x, y, (b i), (ap p b (S i)), (ap q b (S i)); reflexivity.
Qed.
Lemma ap_mul : forall p q b i, ap (pmul p q) b i = ap p (ap q b) i.
Proof.
  induction p as [|x p IH]; intros q b i; cbn [pmul ap]; [reflexivity|].
  destruct x.
  - rewrite ap_add. cbn [ap]. rewrite IH. reflexivity.
  - cbn [ap]. apply IH.
Qed.
Lemma ap_ext : forall p a b i, (forall j, a j = b j) -> ap p a i = ap p b i.
Proof. induction p as [|x p IH]; intros a b i H; cbn [ap]; [reflexivity|]. rewrite (IH a b (S i) H), H. reflexivity. Qed.
Lemma ap_zero : forall p i, ap p (fun _ => false) i = false.
Proof. induction p as [|x p IH]; intros i; cbn [ap]; [reflexivity|]. rewrite IH. destruct x; reflexivity. Qed.
Lemma ap_stretch : forall p q b i, (forall c r, p = c :: r -> True) ->
  ap p (fun j => b (i + 2 * j)) q = ap (flat_map (fun c => [c; false]) p) b (i + 2 * q).
Proof.
  induction p as [|x p IH]; intros q b i _; cbn [ap flat_map app]; [reflexivity|].
  rewrite IH by (intros; exact I). replace (S (S (i + 2 * q))) with (i + 2 * S q) by lia. reflexivity.
Qed.

Definition mono (l : list nat) (n : nat) : list bool := map (fun i => existsb (Nat.eqb i) l) (seq 0 n).
Definition fpoly := Eval vm_compute in mono [0; 13; 23; 38; 51; 62; 80] 81.
Definition apoly := Eval vm_compute in mono [0; 19; 31; 40] 41.
Definition bpoly := Eval vm_compute in mono [6; 11; 25] 26.
Definition upoly := Eval vm_compute in mono [0; 6; 7; 9; 10; 12; 14; 15; 16; 17; 18; 22; 23; 24] 25.
Definition vpoly := Eval vm_compute in mono [0; 1; 3; 4; 5; 11; 12; 13; 24; 27; 28; 31; 32; 33; 37; 38; 39] 40.

Lemma grain_ap b : grain b -> forall i, ap fpoly b i = false.
Proof.
  intros G i. specialize (G i). rewrite !(Nat.add_comm i) in G. cbn [Nat.add] in G.
  unfold fpoly. cbn [ap]. rewrite G.
  match goal with |- xorb ?x0 (xorb ?x1 (xorb ?x2 (xorb ?x3 (xorb ?x4 (xorb ?x5 (xorb _ _)))))) = _ =>
    destruct x0, x1, x2, x3, x4, x5; reflexivity end.
Qed.
(** The square of the polynomial is the polynomial of the squares. *)
Lemma square_f : pmul fpoly fpoly = removelast (flat_map (fun c => [c; false]) fpoly) ++ repeat false 0.
Proof. vm_compute. reflexivity. Qed.
Lemma ap_app_false : forall p b i, ap (p ++ [false]) b i = ap p b i.
Proof. induction p as [|x p IH]; intros b i; cbn [ap app]; [reflexivity|]. rewrite IH. reflexivity. Qed.

(** Every second bit follows the same recurrence. *)
Lemma half_ap b t : grain b -> forall j, ap fpoly (fun j => b (t + 2 * j)) j = false.
Proof.
  intros G j. rewrite (ap_stretch fpoly j b t) by (intros; exact I).
  rewrite (app_removelast_last (l := flat_map (fun c => [c; false]) fpoly) false) by discriminate.
  replace (last (flat_map (fun c => [c; false]) fpoly) false) with false by reflexivity.
  rewrite ap_app_false. pose proof square_f as Q. rewrite app_nil_r in Q. rewrite <- Q.
  rewrite ap_mul. rewrite (ap_ext fpoly (ap fpoly b) (fun _ => false)); [apply ap_zero|].
  intro k. apply grain_ap, G.
Qed.

Lemma ap_recurrence c : (forall j, ap fpoly c j = false) -> grain c.
Proof.
  intros H i. specialize (H i). rewrite !(Nat.add_comm i). cbn [Nat.add]. unfold fpoly in H. cbn [ap] in H. revert H.
  match goal with |- xorb ?x0 (xorb ?x1 (xorb ?x2 (xorb ?x3 (xorb ?x4 (xorb ?x5 (xorb ?x6 _)))))) = _ -> _ =>
    destruct x0, x1, x2, x3, x4, x5, x6; intro H; try discriminate; reflexivity end.
Qed.

Lemma grain_forward c : grain c -> (forall j, j < 80 -> c j = false) -> forall j, c j = false.
Proof.
  intros G Z j. induction j as [j IH] using lt_wf_ind.
  destruct (Nat.lt_ge_cases j 80) as [L|L]; [apply Z, L|].
  replace j with (j - 80 + 80) by lia. rewrite G. rewrite !IH by lia. reflexivity.
Qed.
Lemma grain_backward b t : grain b -> (forall i, t <= i -> b i = false) -> forall i, b i = false.
Proof.
  intros G H. assert (W : forall d i, t <= i + d -> b i = false).
  { induction d as [|d IH]; intros i L; [apply H; lia|].
    pose proof (G i) as E. rewrite !(IH (i + _)) in E by lia.
    destruct (b i); [discriminate|reflexivity]. }
  intro i. apply (W t). lia.
Qed.

Lemma bezout : padd (pmul upoly apoly) (pmul vpoly bpoly) = true :: repeat false 64.
Proof. vm_compute. reflexivity. Qed.
Lemma ap_repeat_false : forall n b i, ap (repeat false n) b i = false.
Proof. induction n as [|n IH]; intros b i; cbn [repeat ap]; [reflexivity|apply IH]. Qed.

Lemma odd_zero b t : grain b -> (forall j, b (t + 2 * j) = false) -> forall j, b (t + 1 + 2 * j) = false.
Proof.
  intros G Z j. set (d := fun j => b (t + 1 + 2 * j)).
  assert (A : forall j, ap apoly d j = false).
  { intro k. pose proof (G (t + 1 + 2 * k)) as E.
    replace (t + 1 + 2 * k + 51) with (t + 2 * (k + 26)) in E by lia.
    replace (t + 1 + 2 * k + 23) with (t + 2 * (k + 12)) in E by lia.
    replace (t + 1 + 2 * k + 13) with (t + 2 * (k + 7)) in E by lia.
    rewrite !Z in E.
    replace (t + 1 + 2 * k + 80) with (t + 1 + 2 * (40 + k)) in E by lia.
    replace (t + 1 + 2 * k + 62) with (t + 1 + 2 * (31 + k)) in E by lia.
    replace (t + 1 + 2 * k + 38) with (t + 1 + 2 * (19 + k)) in E by lia.
    change (d (40 + k) = xorb (d (31 + k)) (xorb false (xorb (d (19 + k)) (xorb false (xorb false (d k)))))) in E.
    cbn [Nat.add] in E. unfold apoly. cbn [ap]. rewrite E.
    match goal with |- xorb ?x0 (xorb ?x1 (xorb ?x2 _)) = _ => destruct x0, x1, x2; reflexivity end. }
  assert (B : forall j, ap bpoly d j = false).
  { intro k. pose proof (G (t + 2 * k)) as E.
    replace (t + 2 * k + 80) with (t + 2 * (k + 40)) in E by lia.
    replace (t + 2 * k + 62) with (t + 2 * (k + 31)) in E by lia.
    replace (t + 2 * k + 38) with (t + 2 * (k + 19)) in E by lia.
    rewrite !Z in E.
    replace (t + 2 * k + 51) with (t + 1 + 2 * (25 + k)) in E by lia.
    replace (t + 2 * k + 23) with (t + 1 + 2 * (11 + k)) in E by lia.
    replace (t + 2 * k + 13) with (t + 1 + 2 * (6 + k)) in E by lia.
    change (false = xorb false (xorb (d (25 + k)) (xorb false (xorb (d (11 + k)) (xorb (d (6 + k)) false))))) in E.
    cbn [Nat.add] in E. unfold bpoly. cbn [ap]. revert E.
    match goal with |- _ -> xorb ?x0 (xorb ?x1 (xorb ?x2 _)) = _ =>
      destruct x0, x1, x2; intro E; try discriminate; reflexivity end. }
  assert (O : ap (padd (pmul upoly apoly) (pmul vpoly bpoly)) d j = false).
  { rewrite ap_add, !ap_mul. rewrite (ap_ext upoly (ap apoly d) (fun _ => false)) by exact A.
    rewrite (ap_ext vpoly (ap bpoly d) (fun _ => false)) by exact B. rewrite !ap_zero. reflexivity. }
  rewrite bezout in O. cbn [ap] in O. rewrite ap_repeat_false, xorb_false_r in O. exact O.
Qed.

(** Among 80 pairs one has the first bit 1. *)
Lemma some_pair b i0 t : grain b -> b i0 = true -> exists j, j < 80 /\ b (t + 2 * j) = true.
Proof.
  intros G N.
  destruct (existsb (fun j => b (t + 2 * j)) (seq 0 80)) eqn:E.
  - apply existsb_exists in E. destruct E as [j [I H]]. apply in_seq in I. exists j. split; [lia|exact H].
  - exfalso. assert (Z : forall j, j < 80 -> b (t + 2 * j) = false).
    { intros j L. destruct (b (t + 2 * j)) eqn:H; [|reflexivity].
      assert (X : existsb (fun j => b (t + 2 * j)) (seq 0 80) = true).
      { apply existsb_exists. exists j. split; [apply in_seq; lia|exact H]. }
      rewrite X in E. discriminate. }
    pose proof (grain_forward _ (ap_recurrence _ (half_ap b t G)) Z) as Z1. cbn beta in Z1.
    pose proof (odd_zero b t G Z1) as Z2.
    assert (ZZ : forall i, t <= i -> b i = false).
    { intros i L. destruct (Nat.Even_or_Odd (i - t)) as [[k K]|[k K]].
      - replace i with (t + 2 * k) by lia. apply Z1.
      - replace i with (t + 1 + 2 * k) by lia. apply Z2. }
    rewrite (grain_backward b t G ZZ i0) in N. discriminate.
Qed.

(** 80 consecutive bits determine the sequence. *)
Lemma grain_xor a b : grain a -> grain b -> grain (fun i => xorb (a i) (b i)).
Proof.
  intros A B i. rewrite A, B.
  destruct (a (i + 62)), (a (i + 51)), (a (i + 38)), (a (i + 23)), (a (i + 13)), (a i),
    (b (i + 62)), (b (i + 51)), (b (i + 38)), (b (i + 23)), (b (i + 13)), (b i); reflexivity.
Qed.
Lemma grain_shift b t : grain b -> grain (fun i => b (t + i)).
Proof. intros G i. rewrite !Nat.add_assoc. apply G. Qed.
Lemma xorb_eq' x y : xorb x y = false -> x = y.
Proof. destruct x, y; intro; try discriminate; reflexivity. Qed.
Lemma grain_window a b t : grain a -> grain b -> (forall j, j < 80 -> a (t + j) = b (t + j)) -> forall i, a i = b i.
Proof.
  intros A B H i. apply xorb_eq'.
  apply (grain_backward (fun i => xorb (a i) (b i)) t (grain_xor a b A B)).
  intros k L. replace k with (t + (k - t)) by lia.
  apply (grain_forward (fun i => xorb (a (t + i)) (b (t + i)))).
  - apply (grain_shift (fun i => xorb (a i) (b i)) t). apply grain_xor; assumption.
  - intros j J. rewrite H by exact J. apply xorb_nilpotent.
Qed.

Lemma testbit_mod_eq a b w : 0 <= w -> (forall j, j < w -> Z.testbit a (Z.of_nat j) = Z.testbit b (Z.of_nat j)) ->
  (a mod 2 ^ Z.of_nat w = b mod 2 ^ Z.of_nat w)%Z.
Proof.
  intros _ H. apply Z.bits_inj'. intros n N.
  destruct (Z.lt_ge_cases n (Z.of_nat w)) as [L|L].
  - rewrite !Z.mod_pow2_bits_low by exact L. rewrite <- (Z2Nat.id n N). apply H. lia.
  - rewrite !Z.mod_pow2_bits_high by lia. reflexivity.
Qed.
Lemma binary_inj a b start w x y : binary_at a start w x -> binary_at b start w y -> (forall i, a i = b i) ->
  (x mod 2 ^ Z.of_nat w = y mod 2 ^ Z.of_nat w)%Z.
Proof.
  intros A B E. apply testbit_mod_eq; [lia|]. intros j L.
  specialize (A (w - 1 - j)). specialize (B (w - 1 - j)). rewrite E in A.
  replace (w - 1 - (w - 1 - j)) with j in A, B by lia. rewrite <- A, <- B by lia. reflexivity.
Qed.
Lemma binary_same a start w x y : binary_at a start w x -> (x mod 2 ^ Z.of_nat w = y mod 2 ^ Z.of_nat w)%Z ->
  binary_at a start w y.
Proof.
  intros A E j L. rewrite (A j L).
  assert (B : (Z.of_nat (w - 1 - j) < Z.of_nat w)%Z) by lia.
  rewrite <- (Z.mod_pow2_bits_low x (Z.of_nat w)) by exact B.
  rewrite E. apply Z.mod_pow2_bits_low. exact B.
Qed.
