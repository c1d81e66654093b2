(** Assembly of the matrix transform theorems. *)
From Coq Require Import ZArith List Bool Lia Arith Permutation Ring Field Field_theory.
From Verif Require Import Field Zp BitsSpec FFTModel FFTSpec FFTProof FFTProof2 FFTProof4 FFTExtra BatchSpec BatchProof BatchProof2 BatchProof3 PolySpec.
Import ListNotations.
Open Scope fld_scope.

Section Extra.
  Variable K : fld.
  Add Field Kbe : (fld_theory K).
  Lemma complete_roots small po k (g : K) it : (0 < k)%nat -> complete_item small po k g it -> it_roots it <> [].
  Proof.
    intros Hk [_ H] E. destruct (H Hk) as [H1 _]. rewrite E in H1. apply (f_equal (@length K)) in H1. rewrite tab_length in H1.
    pose proof (pow2_1 (k - 1)). cbn in H1. lia.
  Qed.
  Lemma brev_bits k i : bit_reversed k i = brev k i.
  Proof. unfold bit_reversed. rewrite brev_Z, Nat2Z.id. reflexivity. Qed.

  Lemma batch_forward adicity (root : K) k h d sched it po cols mat : (adicity < 62)%nat -> primitive_root root (2 ^ adicity) -> (0 < k <= adicity)%nat ->
    radix2_domain adicity root k h d -> schedules sched -> complete_item true po k (generator adicity root k) it -> is_matrix (2 ^ k) cols mat ->
    fft_batch row_bf sched d it mat = Some (matrix (2 ^ k) cols (fun i c => eval (column mat c) (generator adicity root k ^ i))).
  Proof.
    intros Ha HP Hk HR HS HI HM. exact (fft_batch_spec K adicity root k h d cols Ha HP Hk HR true sched it po HS eq_refl HI (complete_roots _ _ _ _ _ (proj1 Hk) HI) mat HM).
  Qed.
  Lemma batch_inverse adicity (root : K) k h d sched it po cols mat : (adicity < 62)%nat -> primitive_root root (2 ^ adicity) -> (0 < k <= adicity)%nat ->
    radix2_domain adicity root k h d -> schedules sched -> complete_item true po k (generator adicity root k) it -> is_matrix (2 ^ k) cols mat ->
    exists out, ifft_batch row_bf row_scale sched d it mat = Some out /\ is_matrix (2 ^ k) cols out /\
      (forall i c, (i < 2 ^ k)%nat -> (c < cols)%nat -> eval (column out c) (generator adicity root k ^ i) = entry mat i c) /\
      fft_batch row_bf sched d it out = Some mat.
  Proof.
    intros Ha HP Hk HR HS HI HM. pose proof (complete_roots _ _ _ _ _ (proj1 Hk) HI) as Hne.
    destruct (ifft_batch_spec K adicity root k h d cols Ha HP Hk HR true sched it po HS eq_refl HI Hne mat HM) as (out & E & HO & V).
    exists out. do 3 (split; [assumption|]). rewrite (batch_forward adicity root k h d sched it po cols out Ha HP Hk HR HS HI HO). f_equal.
    rewrite (matrix_eta K _ _ mat HM) at 1. apply matrix_ext. exact V.
  Qed.
  Lemma batch_wrong adicity (root : K) k h d sched it mat : (adicity < 62)%nat -> primitive_root root (2 ^ adicity) -> (0 < k <= adicity)%nat ->
    radix2_domain adicity root k h d -> length mat <> (2 ^ k)%nat -> fft_batch row_bf sched d it mat = None /\ ifft_batch row_bf row_scale sched d it mat = None.
  Proof.
    intros Ha HP Hk HR HL. pose proof (fft_batch_wrong K adicity root k h d Ha HP Hk HR sched it mat HL) as E. split; [exact E|]. unfold ifft_batch. rewrite E. reflexivity.
  Qed.
  Lemma lde_correct adicity (root : K) k a h d threads sched it po cols mat shift (P : nat -> list K) out_rows (rev : bool) :
    (adicity < 62)%nat -> primitive_root root (2 ^ adicity) -> (0 < k)%nat -> (k + a <= adicity)%nat ->
    radix2_domain adicity root k h d -> (0 < threads < 2 ^ 62)%Z -> schedules sched -> complete_item true po k (generator adicity root k) it ->
    is_matrix (2 ^ k) cols mat -> column_polys (2 ^ k) cols (generator adicity root k) mat P -> (a = 0%nat \/ out_rows = (2 ^ (k + a))%nat) ->
    coset_lde_batch row_bf row_scale (repeat (0 : K) cols) true threads sched adicity root d it mat a shift out_rows rev =
    Some (matrix (2 ^ (k + a)) cols (fun i c => eval (P c) (shift * generator adicity root (k + a) ^ (if rev then i else bit_reversed (k + a) i)))).
  Proof.
    intros Ha HP Hk Hka HR Ht HS HI HM HPc Hout.
    rewrite (lde_spec K adicity root k a h d cols Ha HP Hk Hka HR threads sched it po Ht HS HI (complete_roots _ _ _ _ _ Hk HI) shift mat P out_rows rev HM HPc Hout).
    f_equal. apply matrix_ext. intros i c _ _. rewrite brev_bits. reflexivity.
  Qed.
  Lemma column_polys_exist adicity (root : K) k cols mat : (adicity < 62)%nat -> primitive_root root (2 ^ adicity) -> (0 < k <= adicity)%nat ->
    is_matrix (2 ^ k) cols mat -> exists P, column_polys (2 ^ k) cols (generator adicity root k) mat P.
  Proof.
    intros Ha HP Hk HM. destruct (create_domain adicity root (2 ^ k)) as [d|] eqn:Ed.
    2:{ pose proof (create_spec K adicity root (2 ^ k) Ha HP) as C. rewrite Ed in C. exfalso. assert (Hb : (Z.of_nat (2 ^ k) <= 2 ^ 63)%Z) by (pose proof (pow2_small k ltac:(lia)); lia).
        specialize (C Hb). assert (2 ^ k <= 2 ^ adicity)%nat by (apply Nat.pow_le_mono_r; lia). lia. }
    assert (HR : radix2_domain adicity root k 1 d) by (exists d; split; [exact Ed|left; auto]).
    set (id := fun (A : Type) (_ : nat) (l : list A) => l).
    assert (HS : schedules id) by (intros A t l; apply Permutation_refl).
    destruct (fresh_item K adicity root k 1 d true 1 id true Ha HP (proj2 Hk) HR ltac:(lia) HS) as (it & _ & HI).
    destruct (batch_inverse adicity root k 1 d id it true cols mat Ha HP Hk HR HS HI HM) as (out & _ & HO & V & _).
    exists (column out). intros c Hc. split; [unfold column; rewrite map_length; destruct HO as [-> _]; lia|]. intros i Hi. apply V; auto.
  Qed.
  Lemma lde_wrong adicity (root : K) k a h d threads sched it cols mat shift out_rows rev : (adicity < 62)%nat -> primitive_root root (2 ^ adicity) -> (0 < k)%nat -> (k <= adicity)%nat ->
    radix2_domain adicity root k h d -> length mat <> (2 ^ k)%nat ->
    coset_lde_batch row_bf row_scale (repeat (0 : K) cols) true threads sched adicity root d it mat a shift out_rows rev = None.
  Proof.
    intros Ha HP Hk Hka HR HL. destruct (rdom_ok K _ _ _ _ _ Ha HP Hka HR) as [HD HG]. unfold coset_lde_batch. rewrite (do_size _ _ _ _ _ HD).
    replace (Nat.eqb (2 ^ k) (length mat)) with false by (symmetry; apply Nat.eqb_neq; auto). rewrite andb_false_r. reflexivity.
  Qed.
  Lemma one_row adicity (root : K) threads sched d it po row h a shift out_rows rev cols : (adicity < 62)%nat -> primitive_root root (2 ^ adicity) -> 
    radix2_domain adicity root 0 h d -> build_item true threads sched d po = Some it ->
    fft_batch row_bf sched d it [row] = None /\ ifft_batch row_bf row_scale sched d it [row] = None /\
    coset_lde_batch row_bf row_scale (repeat (0 : K) cols) true threads sched adicity root d it [row] a shift out_rows rev = None.
  Proof.
    intros Ha HP HR HB. destruct (rdom_ok K _ _ _ _ _ Ha HP (Nat.le_0_l _) HR) as [HD HG].
    unfold build_item in HB. rewrite (do_log _ _ _ _ _ HD) in HB. cbn [Nat.eqb] in HB. injection HB as <-.
    split; [reflexivity|]. split; reflexivity.
  Qed.
  Lemma column_matrix rows cols (f : nat -> nat -> K) c : (c < cols)%nat -> column (matrix rows cols f) c = map (fun i => f i c) (seq 0 rows).
  Proof.
    intros Hc. unfold column, matrix. rewrite map_map. apply map_ext. intros i. apply (nth_error_nth _ c 0). apply tab_nth. auto.
  Qed.
  Lemma batch_columns adicity (root : K) k d sched threads it cols mat : (adicity < 62)%nat -> primitive_root root (2 ^ adicity) -> (0 < k <= adicity)%nat ->
    radix2_domain adicity root k 1 d -> schedules sched -> (0 < threads < 2 ^ 62)%Z -> complete_item true false k (generator adicity root k) it -> is_matrix (2 ^ k) cols mat ->
    exists out, fft_batch row_bf sched d it mat = Some out /\ forall c, (c < cols)%nat -> fft threads sched d it (column mat c) = Some (column out c).
  Proof.
    intros Ha HP Hk HR HS Ht HI HM. eexists. split; [apply (batch_forward adicity root k 1 d sched it false cols mat Ha HP Hk HR HS HI HM)|]. intros c Hc.
    destruct (fft_correct K adicity root k 1 d true threads sched it (column mat c) Ha HP (proj2 Hk) HR Ht HS HI) as [F _].
    assert (L : length (column mat c) = (2 ^ k)%nat) by (unfold column; rewrite map_length; apply HM). pose proof (pow2_1 k).
    rewrite F; [|lia|intros E; rewrite E in L; cbn in L; lia]. f_equal. rewrite column_matrix by auto. unfold values_on. apply map_ext. intros i. f_equal.
    ring.
  Qed.
  Lemma lde_const adicity (root : K) k a h d threads sched it po cols mat shift (P : nat -> list K) out_rows (flag : bool) :
    (adicity < 62)%nat -> primitive_root root (2 ^ adicity) -> (0 < k)%nat -> (k + a <= adicity)%nat ->
    radix2_domain adicity root k h d -> (0 < threads < 2 ^ 62)%Z -> schedules sched -> complete_item true po k (generator adicity root k) it ->
    is_matrix (2 ^ k) cols mat -> column_polys (2 ^ k) cols (generator adicity root k) mat P -> (a = 0%nat \/ out_rows = (2 ^ (k + a))%nat) ->
    coset_lde_batch_const row_bf row_scale (repeat (0 : K) cols) true threads sched adicity root d it mat a shift out_rows flag =
    Some (matrix (2 ^ (k + a)) cols (fun i c => eval (P c) (shift * generator adicity root (k + a) ^ i))).
  Proof. intros. apply (lde_correct adicity root k a h d threads sched it po cols mat shift P out_rows true); assumption. Qed.
End Extra.
