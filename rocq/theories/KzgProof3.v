(** Proofs about the setup of KZG and its commitments. *)
From Coq Require Import ZArith Lia List Bool Arith Ring Field Field_theory.
From Verif Require Import Field SemigroupModel PolySpec PolyModel PolyProof3 FFTModel FFTSpec FFTProof FFTProof3 FFTProof4 FFTProof5 DomainModel DomainSpec DomainExtra QapSpec QapProof GrothModel GrothProof
  KzgModel KzgSpec.
Import ListNotations.
Open Scope fld_scope.

Section Commit.
  Context {K : fld} {G1 : group K}.
  Add Field Kk4 : (fld_theory K).
  Lemma inner_powers (tau : K) : forall (v : list K) s, inner v (map (fun i => tau ^ i) (seq s (length v))) = tau ^ s * eval v tau.
  Proof.
    induction v as [|a v IH]; intros s; cbn [length seq map]; [rewrite (inner_nil K), eval_nil; ring|].
    rewrite (inner_cons K), IH, eval_cons, fpow_S. ring.
  Qed.
  Lemma firstn_tab {A} (f : nat -> A) n len : (len <= n)%nat -> firstn len (map f (seq 0 n)) = map f (seq 0 len).
  Proof. intros H. exact (slice_tab f n 0 len H). Qed.
  Lemma fixed_tab (g : G1) (f : nat -> K) n : map (fun i => (f i ** g)%grp) (seq 0 n) = fixed_base g (map f (seq 0 n)).
  Proof. unfold fixed_base. rewrite map_map. reflexivity. Qed.
  Lemma commit_ok (k : kzg G1) g1 tau n v : powers_at k g1 tau n -> (length v <= n)%nat -> commit k v = Some (eval v tau ** g1)%grp.
  Proof.
    intros E L. unfold commit, do_msm. rewrite E, map_length, seq_length, Nat.min_r, firstn_tab, fixed_tab by lia.
    rewrite msm_fixed by (rewrite map_length, seq_length; reflexivity). rewrite inner_powers. f_equal. f_equal. cbn [fpow]. ring.
  Qed.
  Lemma msm_long (bases : list G1) v : (length bases < length v)%nat -> do_msm bases v = None.
  Proof. intros L. unfold do_msm. rewrite Nat.min_l, firstn_all by lia. apply msm_false. lia. Qed.
  Lemma commit_long (k : kzg G1) v : (k_size k < length v)%nat -> commit k v = None.
  Proof. apply msm_long. Qed.
  Lemma size_at (k : kzg G1) g1 tau n : powers_at k g1 tau n -> k_size k = n.
  Proof. intros E. unfold k_size. rewrite E, map_length, seq_length. reflexivity. Qed.

  Lemma inner_tab (f : nat -> K) : forall (l : list K) s, inner (map f (seq s (length l))) l = fsum (map (fun i => f i * nth (i - s) l 0) (seq s (length l))).
  Proof.
    induction l as [|a l IH]; intros s; cbn [length seq map]; [rewrite (inner_nil K); reflexivity|].
    rewrite (inner_cons K), IH. cbn [fsum]. rewrite Nat.sub_diag. cbn [nth]. f_equal. apply fsum_map_ext. intros i Hi. apply in_seq in Hi.
    replace (i - s)%nat with (S (i - S s)) by lia. reflexivity.
  Qed.

  Section Setup.
    Variables (threads : Z) (adicity : nat) (root : K).
    Hypothesis Ht : (0 < threads < 128)%Z.
    Hypothesis Ha : (adicity < 62)%nat.
    Hypothesis HP : primitive_root root (2 ^ adicity).
    Lemma bits62 k : (k <= adicity)%nat -> (2 * Z.of_nat (2 ^ k) + threads < 2 ^ 64)%Z.
    Proof using Ht Ha.
      intros H. rewrite pow2_Z. assert ((2 ^ Z.of_nat k <= 2 ^ 61)%Z) by (apply Z.pow_le_mono_r; lia). change (2 ^ 64)%Z with (8 * 2 ^ 61)%Z. change (2 ^ 61)%Z with 2305843009213693952%Z in *. lia.
    Qed.
    Lemma setup_domain k : (k <= adicity)%nat -> exists d, create_domain adicity root (2 ^ k) = Some d /\ radix2_domain adicity root k 1 d /\ d_size d = (2 ^ k)%nat.
    Proof using Ha HP.
      intros Hk. destruct (new_domain_ok K adicity root k ltac:(lia) Hk HP) as (_ & d & E & D).
      assert (C : create_domain adicity root (2 ^ k) = Some d).
      { rewrite create_domain_eq; [rewrite Nat.log2_up_pow2 by lia; exact E|]. rewrite pow2_Z. apply Z.pow_le_mono_r; lia. }
      exists d. split; [exact C|]. split; [exists d; split; [exact C|left; auto]|]. exact (do_size _ _ _ _ _ D).
    Qed.
    Lemma setup_ok (g1 : G1) k tau : (k <= adicity)%nat -> exists s, unsafe_setup threads adicity root g1 (2 ^ k) tau = Some (Some s) /\ powers_at s g1 tau (2 ^ k) /\
      length (k_lagrange s) = (2 ^ k)%nat /\
      forall f, (length f <= 2 ^ k)%nat -> commit_lagrange s (values_on f 1 (generator adicity root k) (2 ^ k)) = Some (eval f tau ** g1)%grp.
    Proof using Ht Ha HP.
      intros Hk. unfold unsafe_setup. rewrite powers_spec by (try apply bits62; lia). unfold batch_map. rewrite tab_length, Nat.eqb_refl.
      destruct (setup_domain k Hk) as (d & -> & HR & _). destruct (lagrange_all K adicity root k 1 d threads tau Ha HP Hk HR Ht) as [(l & -> & El & Hl) _].
      assert (Ll : length l = (2 ^ k)%nat) by (rewrite El, map_length, seq_length; reflexivity). rewrite Ll, Nat.eqb_refl. cbn [option_map].
      eexists. split; [reflexivity|]. unfold powers_at. cbn [k_powers k_lagrange]. split; [unfold fixed_base; rewrite map_map; reflexivity|].
      split; [unfold fixed_base; rewrite map_length; exact Ll|].
      intros f Hf. unfold commit_lagrange, do_msm. cbn [k_lagrange].
      assert (Lv : length (values_on f 1 (generator adicity root k) (2 ^ k)) = (2 ^ k)%nat) by (unfold values_on; rewrite map_length, seq_length; reflexivity).
      assert (Lb : length (fixed_base g1 l) = (2 ^ k)%nat) by (unfold fixed_base; rewrite map_length; exact Ll).
      rewrite Lv, Lb, Nat.min_id, firstn_all2 by lia. rewrite msm_fixed by lia. f_equal. f_equal. rewrite <- (Hl f Hf). clear Hl El Lb HR.
      unfold values_on. rewrite <- Ll at 1. rewrite inner_tab, Ll. apply fsum_map_ext. intros i Hi. apply in_seq in Hi. rewrite Nat.sub_0_r. f_equal.
      unfold coset_points. f_equal. rewrite (nth_indep _ 0 (1 * generator adicity root k ^ 0)) by (rewrite map_length, seq_length; lia).
      rewrite (map_nth (fun i => 1 * generator adicity root k ^ i)), seq_nth by lia. reflexivity.
    Qed.
    Lemma setup_false (g1 : G1) n tau : (n <= 2 ^ adicity)%nat -> (forall k, n <> 2 ^ k)%nat -> unsafe_setup threads adicity root g1 n tau = Some None.
    Proof using Ht Ha HP.
      intros Hn Hp. set (k := Nat.log2_up n). assert (Hk : (k <= adicity)%nat) by (unfold k; etransitivity; [apply Nat.log2_up_le_mono, Hn|rewrite Nat.log2_up_pow2 by lia; reflexivity]).
      assert (Hnk : (n <= 2 ^ k)%nat) by (unfold k; destruct n as [|[|n]]; [cbn; lia..|]; apply (Nat.log2_up_spec (S (S n))); lia).
      pose proof (bits62 k Hk) as B. unfold unsafe_setup. rewrite powers_spec by lia. unfold batch_map at 1. rewrite tab_length, Nat.eqb_refl.
      destruct (setup_domain k Hk) as (d & C & HR & _).
      assert (C2 : create_domain adicity root n = Some d).
      { rewrite <- C, !create_domain_eq by lia. rewrite Nat.log2_up_pow2 by lia. reflexivity. }
      rewrite C2. destruct (lagrange_all K adicity root k 1 d threads tau Ha HP Hk HR Ht) as [(l & -> & El & _) _].
      unfold batch_map. rewrite El, map_length, seq_length. destruct (Nat.eqb_spec (2 ^ k) n) as [E|]; [|reflexivity]. destruct (Hp k). symmetry. exact E.
    Qed.
    Lemma setup_aborts (g1 : G1) n tau : (2 ^ adicity < n)%nat -> (Z.of_nat n <= 2 ^ 62)%Z -> unsafe_setup threads adicity root g1 n tau = None.
    Proof using Ht Ha.
      intros Hn Hb. unfold unsafe_setup. change (2 ^ 62)%Z with 4611686018427387904%Z in Hb. rewrite powers_spec by (change (2 ^ 64)%Z with 18446744073709551616%Z; lia).
      unfold batch_map at 1. rewrite tab_length, Nat.eqb_refl. rewrite create_domain_eq by (change (2 ^ 63)%Z with 9223372036854775808%Z; lia).
      assert (A : (adicity < Nat.log2_up n)%nat) by (apply Nat.log2_up_lt_pow2; [pose proof (pow2_1 adicity); lia|exact Hn]).
      rewrite new_domain_too_large; [reflexivity|exact A|].
      assert (Nat.log2_up n <= 62)%nat; [|lia]. apply Nat.log2_up_le_pow2; [lia|]. apply Nat2Z.inj_le. rewrite pow2_Z. exact Hb.
    Qed.
  End Setup.

  (** Downsize keeps the first points. *)
  Lemma downsize_powers (k : kzg G1) g1 tau n m : powers_at k g1 tau n -> (m < n)%nat -> exists k', downsize k m = (k', true) /\ powers_at k' g1 tau m /\
    k_lagrange k' = firstn m (k_lagrange k).
  Proof.
    intros E L. unfold downsize. rewrite (size_at k g1 tau n E). destruct (Nat.leb_spec n m); [lia|]. eexists. split; [reflexivity|]. unfold powers_at in *. cbn [k_powers k_lagrange].
    split; [rewrite E; apply firstn_tab; lia|reflexivity].
  Qed.
End Commit.
