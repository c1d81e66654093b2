(** FRI with inputs of two sizes: the smaller one is added without a random factor, so that it can cancel the folding of the larger one. *)
From Coq Require Import ZArith List Bool Lia Arith Sorting.Sorted Ring Field Field_theory.
From Verif Require Import Field BitsSpec PolySpec PolyProof PolyProof3 FFTModel FFTSpec FFTProof FriModel FriSpec FriProof FriProof2 FriProof3 FriProof4 FriExtra.
Import ListNotations.
Open Scope nat_scope.

Section Cancel.
  Variable K : fld.
  Add Field Kfri6 : (fld_theory K).
  Open Scope fld_scope.
  Variables (adicity : nat) (root : K) (threads : Z) (lb k1 : nat) (e : list K).
  Hypothesis Had : (adicity < 63)%nat.
  Hypothesis Hroot : primitive_root root (2 ^ adicity).
  Hypothesis H2 : (1 + 1 : K) <> 0.
  Hypothesis Ht : (0 < threads < 2 ^ 63)%Z.
  Hypothesis Hlb : (0 < lb)%nat.
  Hypothesis Hk1 : (lb < k1)%nat.
  Hypothesis Hka : (S k1 <= adicity)%nat.
  Hypothesis He : length e = (2 ^ k1)%nat.
  Definition twice : list K := flat_map (fun x => [x; x]) e.
  Definition minus : list K := map fopp e.
  Notation ins := [twice; minus].

  Lemma twice_length : length twice = (2 ^ S k1)%nat.
  Proof using He. clear Had Hroot H2 Ht Hlb Hk1 Hka.
    unfold twice. cbn [Nat.pow]. rewrite <- He. clear. induction e as [|x l IH]; [reflexivity|]. cbn [flat_map app length]. rewrite IH. lia.
  Qed.
  Lemma minus_length : length minus = (2 ^ k1)%nat.
  Proof using He. clear Had Hroot H2 Ht Hlb Hk1 Hka. unfold minus. rewrite map_length. exact He. Qed.
  Lemma twice_nth i : nth (2 * i) twice 0 = nth i e 0 /\ nth (2 * i + 1) twice 0 = nth i e 0.
  Proof using Type.
    clear. unfold twice. revert i. induction e as [|x l IH]; intros i; [split; destruct i; cbn; try reflexivity; destruct (i + S (i + 0))%nat; try reflexivity; destruct n; reflexivity|].
    cbn [flat_map app]. destruct i as [|i]; [split; reflexivity|]. replace (2 * S i)%nat with (S (S (2 * i))) by lia. replace (S (S (2 * i)) + 1)%nat with (S (S (2 * i + 1))) by lia. cbn [nth]. apply IH.
  Qed.
  Lemma pow_neq a b : (a < b)%nat -> (2 ^ a <> 2 ^ b)%nat.
  Proof using Type. clear. intros H E. apply Nat.pow_inj_r in E; lia. Qed.
  Lemma ins_decreasing : decreasing ins.
  Proof using He. clear Had Hroot H2 Ht Hlb Hk1 Hka. repeat constructor. rewrite twice_length, minus_length. apply Nat.pow_lt_mono_r; lia. Qed.
  Lemma ins_pow2 : pow2_lengths ins.
  Proof using He. clear Had Hroot H2 Ht Hlb Hk1 Hka. repeat constructor; rewrite ?twice_length, ?minus_length, Nat.log2_pow2 by lia; reflexivity. Qed.

  (** The folded vectors: zero, [e] once, zero again. *)
  Definition good (k : nat) (f : list K) : Prop := f = if (k =? k1)%nat then e else repeat 0 (2 ^ k).
  Lemma good_length k f : good k f -> length f = (2 ^ k)%nat.
  Proof using He. clear Had Hroot H2 Ht Hlb Hk1 Hka. unfold good. destruct (Nat.eqb_spec k k1) as [->|]; intros ->; [exact He|apply repeat_length]. Qed.
  Lemma add_zero (v : list K) n : length v = n -> add_vectors (repeat 0 n) v = v.
  Proof using Type.
    clear. intros H. apply nth_ext with (d := 0) (d' := 0); [rewrite add_vectors_length; rewrite repeat_length; auto|].
    intros i Hi. rewrite add_vectors_length in Hi by (rewrite repeat_length; auto). rewrite repeat_length in Hi. rewrite add_vectors_nth by (rewrite repeat_length; auto). rewrite nth_repeat. ring.
  Qed.
  Lemma add_minus : add_vectors e minus = repeat 0 (2 ^ k1).
  Proof using He. clear Had Hroot H2 Ht Hlb Hk1 Hka.
    apply nth_ext with (d := 0) (d' := 0); [rewrite add_vectors_length, repeat_length by (rewrite minus_length; auto); exact He|].
    intros i Hi. rewrite add_vectors_length in Hi by (rewrite minus_length; auto). rewrite add_vectors_nth by (auto; rewrite minus_length; auto). rewrite nth_repeat. unfold minus.
    rewrite (nth_indep (map fopp e) 0 (fopp 0)) by (rewrite map_length; exact Hi). rewrite map_nth. ring.
  Qed.
  Lemma good_added k f : (k <= S k1)%nat -> good k f -> add_inputs f ins = if (k =? S k1)%nat then twice else repeat 0 (2 ^ k).
  Proof using He. clear Had Hroot H2 Ht Hlb Hk1 Hka.
    unfold good. intros Hk ->. destruct (Nat.eqb_spec k k1) as [->|].
    - rewrite (proj2 (Nat.eqb_neq k1 (S k1))) by lia. cbn [add_inputs]. rewrite twice_length, He. rewrite (proj2 (Nat.eqb_neq (2 ^ S k1) (2 ^ k1))) by (intros E; symmetry in E; revert E; apply pow_neq; lia).
      rewrite minus_length, He, Nat.eqb_refl. apply add_minus.
    - destruct (Nat.eqb_spec k (S k1)) as [->|].
      + cbn [add_inputs]. rewrite repeat_length, twice_length, Nat.eqb_refl. rewrite add_zero by apply twice_length. rewrite twice_length, minus_length. rewrite (proj2 (Nat.eqb_neq (2 ^ k1) (2 ^ S k1))) by (apply pow_neq; lia). reflexivity.
      + apply add_inputs_small. repeat constructor; rewrite ?twice_length, ?minus_length, repeat_length; intros E; symmetry in E; revert E; apply pow_neq; lia.
  Qed.
  Lemma fold_same k (v : list K) m beta f : (0 < k)%nat -> (S k <= adicity)%nat -> length v = (2 ^ S k)%nat -> leaves v = Some m -> fold_matrix adicity root threads beta m = Some f ->
    (forall i, (i < 2 ^ k)%nat -> nth (2 * i) v 0 = nth (2 * i + 1) v 0) -> f = map (fun i => nth (2 * i) v 0) (seq 0 (2 ^ k)).
  Proof using Had Hroot H2 Ht. clear He Hlb Hk1 Hka.
    intros H0 Hk Hv Hm Hf HS. rewrite (leaves_spec K (2 ^ k) v) in Hm by (cbn [Nat.pow] in Hv; lia). injection Hm as <-.
    rewrite (fold_matrix_spec K adicity root Had Hroot threads beta k) in Hf; auto.
    - injection Hf as <-. apply map_ext_in. intros i Hi. apply in_seq in Hi. set (M := map _ _).
      assert (N : nth i M [] = [nth (2 * i) v 0; nth (2 * i + 1) v 0]).
      { apply nth_error_nth. unfold M. rewrite nth_error_map, (nth_error_nth' _ 0%nat) by (rewrite seq_length; lia). rewrite seq_nth by lia. reflexivity. }
      rewrite N. cbn [nth]. rewrite <- HS by lia. unfold fold_pair. pose proof (two_inv_spec K H2) as T.
      match goal with |- ?L = ?x => transitivity ((two_inv + two_inv) * x); [ring|rewrite T; ring] end.
    - rewrite map_length, seq_length. reflexivity.
    - apply Forall_forall. intros r Hr. apply in_map_iff in Hr. destruct Hr as (i & <- & _). reflexivity.
  Qed.
  Lemma good_fold k f m beta f' : (lb <= k)%nat -> (S k <= adicity)%nat -> (S k <= S k1)%nat -> good (S k) f -> leaves (add_inputs f ins) = Some m ->
    fold_matrix adicity root threads beta m = Some f' -> good k f'.
  Proof using Had Hroot H2 Ht He Hlb. clear Hk1 Hka.
    intros Hl Hk Hs Hg Hm Hf. rewrite (good_added (S k) f Hs Hg) in Hm. unfold good. destruct (Nat.eqb_spec (S k) (S k1)) as [E|E].
    - injection E as ->. rewrite Nat.eqb_refl. rewrite (fold_same k1 twice m beta f' ltac:(lia) Hk twice_length Hm Hf).
      + rewrite <- He. transitivity (map (fun i => nth i e 0) (seq 0 (length e))); [apply map_ext; intros i; apply twice_nth|].
        clear. induction e as [|x l IH]; [reflexivity|]. cbn [length seq map nth]. f_equal. rewrite <- seq_shift, map_map. exact IH.
      + intros i Hi. destruct (twice_nth i) as [-> ->]. reflexivity.
    - rewrite (proj2 (Nat.eqb_neq k k1)) by lia. rewrite (fold_same k (repeat 0 (2 ^ S k)) m beta f' ltac:(lia) Hk (repeat_length _ _) Hm Hf).
      + transitivity (map (fun _ => (0 : K)) (seq 0 (2 ^ k))); [apply map_ext; intros i; apply nth_repeat|]. remember (2 ^ k)%nat as n eqn:En. clear En. generalize 0%nat.
        induction n as [|n IH]; intros s; [reflexivity|]. cbn [seq map repeat]. rewrite IH. reflexivity.
      + intros i Hi. rewrite !nth_repeat. reflexivity.
  Qed.

  (** Neither input is of low degree unless [e] is. *)
  Lemma twice_low : low_degree adicity root lb (S k1) twice -> low_degree adicity root lb k1 e.
  Proof using Had Hroot H2 Ht He Hlb Hk1 Hka.
    intros L. destruct (low_fold K adicity root Had Hroot H2 lb threads 0 k1 twice Ht Hlb ltac:(lia) Hka L) as (m & f & E1 & _ & _ & _ & E2 & E3).
    rewrite (fold_same k1 twice m 0 f ltac:(lia) Hka twice_length E1 E2) in E3 by (intros i Hi; destruct (twice_nth i) as [-> ->]; reflexivity).
    replace e with (map (fun i => nth (2 * i) twice 0) (seq 0 (2 ^ k1))) ; [exact E3|].
    rewrite <- He. transitivity (map (fun i => nth i e 0) (seq 0 (length e))); [apply map_ext; intros i; apply twice_nth|].
    clear. induction e as [|x l IH]; [reflexivity|]. cbn [length seq map nth]. f_equal. rewrite <- seq_shift, map_map. exact IH.
  Qed.
  Lemma minus_low : low_degree adicity root lb k1 minus -> low_degree adicity root lb k1 e.
  Proof using He. clear Had Hroot H2 Ht Hlb Hk1 Hka.
    intros (Hl & c & Hc & _ & E). split; [exact Hl|]. exists (map fopp c). split; [rewrite map_length; exact Hc|]. split; [exact He|].
    intros r Hr. specialize (E r Hr). unfold minus in E. rewrite (nth_indep _ 0 (fopp 0)) in E by (rewrite map_length, He; exact Hr). rewrite map_nth in E.
    rewrite (eval_linear K c [] (map fopp c) (- (1)) 0).
    - rewrite <- E. ring.
    - intros i. unfold coeff at 1. destruct (Nat.lt_ge_cases i (length c)) as [H|H].
      + rewrite (nth_indep _ 0 (fopp 0)) by (rewrite map_length; exact H). rewrite map_nth. unfold coeff. assert (nth i [] 0 = 0) as -> by (destruct i; reflexivity). ring.
      + rewrite nth_overflow by (rewrite map_length; exact H). rewrite !coeff_over by (cbn; lia). ring.
  Qed.
End Cancel.

Lemma cancelling_inputs : forall (K : fld) (adicity : nat) (root : K) (threads : Z) (Com Data Pf : Type)
    mmcs_commit mmcs_matrix mmcs_open mmcs_verify (Ch Wit : Type) observe_commitment observe_value sample grind check_witness sample_bits
    (InProof : Type) (lb num_queries k : nat) (e : list K) open_p open_v (ch : Ch),
  adicity < 63 -> primitive_root root (2 ^ adicity) -> ((1 + 1 : K) <> 0)%fld -> (0 < threads < 2 ^ 63)%Z -> 0 < lb -> lb < k < adicity ->
  @complete_mmcs K Com Data Pf mmcs_commit mmcs_matrix mmcs_open mmcs_verify ->
  length e = 2 ^ k ->
  (forall n c, fst (sample_bits n c) < 2 ^ n) -> (forall c, check_witness c (fst (grind c)) = (true, snd (grind c))) ->
  (forall index, index < 2 ^ S k -> open_v index (open_p index) = Some (openings_at (S k) index [flat_map (fun x => [x; x]) e; map fopp e])) ->
  exists proof ch',
    prove K adicity root threads Com Data Pf mmcs_commit mmcs_matrix mmcs_open Ch Wit observe_commitment observe_value sample grind sample_bits InProof lb num_queries
      [flat_map (fun x => [x; x]) e; map fopp e] ch open_p = Some (proof, ch') /\
    verify K adicity root Com Pf mmcs_verify Ch Wit observe_commitment observe_value sample check_witness sample_bits InProof lb num_queries proof ch open_v = Some (true, ch').
Proof.
  intros K ad root th Com Data Pf mc mm mo mv Ch Wit oc ov s g cw sb IP lb nq k e op opv ch H1 H2 H3 H4 H5 H6 H7 He H8 H9 H10.
  pose proof (twice_length K k e He) as L1. pose proof (minus_length K k e He) as L2.
  change (flat_map (fun x => [x; x]) e) with (twice K e) in *. change (map fopp e) with (minus K e) in *.
  apply (fri_general K ad root th H1 H2 H4 Com Data Pf mc mm mo mv Ch Wit oc ov s g cw sb IP lb nq H5 H7 [twice K e; minus K e] (S k)) with (Good := fun j f => j <= S k /\ good K k e j f); auto; try lia.
  - exists (twice K e), [minus K e]. auto.
  - apply (ins_decreasing K k e He).
  - apply (ins_pow2 K k e He).
  - intros j f [_ Hf]. apply (good_length K k e He _ _ Hf).
  - intros j f m beta f' Hl Hj [Hs Hg] Hm Hf. split; [lia|]. apply (good_fold K ad root th lb k e H1 H2 H3 H4 H5 He j f m beta f' Hl Hj Hs Hg Hm Hf).
  - split; [lia|]. unfold good. rewrite (proj2 (Nat.eqb_neq _ _)) by lia. reflexivity.
  - intros f [_ Hf]. exists 0%fld. intros i Hi. rewrite (good_added K k e He lb f ltac:(lia) Hf). rewrite (proj2 (Nat.eqb_neq _ _)) by lia.
    rewrite (nth_error_nth' _ 0%fld) by (rewrite repeat_length; exact Hi). rewrite nth_repeat. reflexivity.
  - repeat constructor; rewrite ?L1, ?L2; apply Nat.pow_lt_mono_r; lia.
Qed.
