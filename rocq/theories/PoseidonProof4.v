(** Cauchy matrices are MDS; the permutations are injective. *)
From Coq Require Import ZArith Znumtheory List Bool Arith Lia Ring Field Field_theory.
From Verif Require Import Field Zp FrobProof PolyModel PolySpec PolyProof3 KzgProof SumcheckProof5 PoseidonModel PoseidonSpec PoseidonProof PoseidonProof2.
Import ListNotations.

Section Cauchy.
  Variable K : fld.
  Add Field Kps5 : (fld_theory K).
  Open Scope fld_scope.

  Definition others (k j : nat) : list nat := seq 0 j ++ seq (S j) (k - j - 1).
  Lemma others_in k j l : In l (others k j) -> (j < k)%nat -> (l < k)%nat /\ l <> j.
  Proof. intros H Hj. unfold others in H. apply in_app_or in H. destruct H as [H|H]; apply in_seq in H; lia. Qed.
  Lemma in_others k j l : (l < k)%nat -> l <> j -> In l (others k j).
  Proof. intros Hl Hn. unfold others. apply in_or_app. destruct (Nat.lt_ge_cases l j); [left|right]; apply in_seq; lia. Qed.
  Lemma others_length k j : (j < k)%nat -> length (others k j) = (k - 1)%nat.
  Proof. intros H. unfold others. rewrite app_length, !seq_length. lia. Qed.
  Lemma split_others (f : nat -> K) k j : (j < k)%nat -> fprod (map f (seq 0 k)) = f j * fprod (map f (others k j)).
  Proof.
    intros H. unfold others. replace k with (j + (1 + (k - j - 1)))%nat at 1 by lia.
    rewrite seq_app, !map_app, !fprod_app. cbn [Nat.add seq map fprod]. ring.
  Qed.
  Lemma fprod_zero (l : list K) : In 0 l -> fprod l = 0.
  Proof. induction l as [|x l IH]; intros H; [contradiction|]. cbn [fprod]. destruct H as [->|H]; [ring|rewrite IH by exact H; ring]. Qed.

  Lemma cauchy_nonsingular k (xs ys : nat -> K) :
    (forall i j, (i < k)%nat -> (j < k)%nat -> xs i = xs j -> i = j) ->
    (forall i j, (i < k)%nat -> (j < k)%nat -> ys i = ys j -> i = j) ->
    (forall i j, (i < k)%nat -> (j < k)%nat -> xs i + ys j <> 0) ->
    nonsingular k (fun i j => finv (xs i + ys j)).
  Proof.
    intros Hx Hy Hs v Hv j Hj.
    set (P := fun x => fsum (map (fun j => v j * fprod (map (fun r => x - r) (map (fun l => - ys l) (others k j)))) (seq 0 k))).
    assert (HP : isp K k P).
    { unfold P. apply (isp_sum K k (fun j x => v j * fprod (map (fun r => x - r) (map (fun l => - ys l) (others k j))))).
      intros i Hi. apply in_seq in Hi.
      pose proof (isp_roots K 1 (fun _ => v i) (map (fun l => - ys l) (others k i)) (isp_const K (v i))) as H.
      rewrite map_length, others_length in H by lia. replace (1 + (k - 1))%nat with k in H by lia. exact H. }
    assert (Z : forall x, P x = 0).
    { apply (isp_vanish K k P (map xs (seq 0 k)) HP).
      - apply NoDup_nth with (d := xs 0%nat). rewrite map_length, seq_length. intros a b Ha Hb E.
        rewrite !map_nth, !seq_nth in E by lia. apply Hx; assumption.
      - rewrite map_length, seq_length. lia.
      - intros x Hin. apply in_map_iff in Hin. destruct Hin as (i & <- & Hi). apply in_seq in Hi.
        assert (E : P (xs i) = fprod (map (fun l => xs i + ys l) (seq 0 k)) * mv k (fun i j => finv (xs i + ys j)) v i).
        { unfold P, mv. rewrite <- fsum_map_mul. apply fsum_map_ext. intros l Hl. apply in_seq in Hl.
          rewrite (split_others (fun l => xs i + ys l) k l) by lia. rewrite map_map.
          rewrite (map_ext (fun x => xs i - - ys x) (fun l => xs i + ys l)) by (intros; ring).
          field. apply Hs; lia. }
        rewrite E, Hv by lia. ring. }
    specialize (Z (- ys j)). unfold P in Z. rewrite (sum_one K _ k j Hj) in Z.
    - apply fmul_integral in Z. destruct Z as [Z|Z]; [exact Z|]. exfalso. revert Z. apply fprod_neq0.
      intros x Hin. rewrite map_map in Hin. apply in_map_iff in Hin. destruct Hin as (l & <- & Hl).
      destruct (others_in k j l Hl Hj) as [L1 L2]. intros E. apply L2. apply Hy; [lia|lia|].
      transitivity ((- ys j - - ys l) + ys j); [ring|]. rewrite E. ring.
    - intros l Hl Hn. rewrite fprod_zero; [ring|]. rewrite map_map. apply in_map_iff. exists j. split; [ring|].
      apply in_others; [exact Hj|congruence].
  Qed.
  Lemma cauchy_mds_ok n (xs ys : pvec K) m : cauchy_mds n xs ys = Some m ->
    (forall i j, (i < n)%nat -> (j < n)%nat -> xs i = xs j -> i = j) ->
    (forall i j, (i < n)%nat -> (j < n)%nat -> ys i = ys j -> i = j) -> is_mds n m.
  Proof.
    unfold cauchy_mds. destruct forallb eqn:E; [|discriminate]. intros [= <-] Hx Hy k rows cols Hr Hd.
    rewrite forallb_forall in E.
    apply (cauchy_nonsingular k (fun i => xs (rows i)) (fun j => ys (cols j))).
    - intros i j Hi Hj H. apply Hd; [assumption|assumption|left]. apply Hx; try apply Hr; assumption.
    - intros i j Hi Hj H. apply Hd; [assumption|assumption|right]. apply Hy; try apply Hr; assumption.
    - intros i j Hi Hj H. specialize (E (rows i)). rewrite forallb_forall in E.
      pose proof (proj1 (Hr i Hi)). pose proof (proj2 (Hr j Hj)).
      specialize (E ltac:(apply in_seq; lia) (cols j) ltac:(apply in_seq; lia)).
      rewrite H, feqb_refl in E. discriminate.
  Qed.
  Lemma mds_nonsingular n (m : pmat K) : is_mds n m -> nonsingular n m /\ nonsingular (n - 1) (fun i j => m (S i) (S j)).
  Proof.
    intros H. split.
    - apply (H n (fun i => i) (fun i => i)); intros; lia.
    - apply (H (n - 1)%nat S S); intros; lia.
  Qed.

  (** ** injectivity *)
  Lemma mv_injective n (m : pmat K) u v : nonsingular n m -> veq K n (mv n m u) (mv n m v) -> veq K n u v.
  Proof.
    intros HN H i Hi. apply fsub_eq0. apply (HN (fun j => u j - v j)); [|exact Hi].
    intros j Hj. rewrite mv_sub, H by exact Hj. ring.
  Qed.
  Variable alpha : nat.
  Hypothesis Hpow : forall x y : K, x ^ alpha = y ^ alpha -> x = y.
  Lemma add_injective (x y c : K) : x + c = y + c -> x = y.
  Proof. intros H. transitivity (x + c - c); [ring|]. rewrite H. ring. Qed.
  Lemma round_injective n rf rp (mds ark : pmat K) r x y : nonsingular n mds ->
    veq K n (poseidon_round n rf rp alpha mds ark x r) (poseidon_round n rf rp alpha mds ark y r) -> veq K n x y.
  Proof.
    intros HN H. unfold poseidon_round in H. cbv zeta in H. apply mv_injective in H; [|exact HN].
    intros i Hi. specialize (H i Hi). cbv beta in H. destruct orb; apply (add_injective _ _ (ark r i)); [apply Hpow|]; exact H.
  Qed.
  Lemma poseidon_injective n rf rp (mds ark : pmat K) x y : nonsingular n mds ->
    veq K n (poseidon n rf rp alpha mds ark x) (poseidon n rf rp alpha mds ark y) -> veq K n x y.
  Proof.
    intros HN. unfold poseidon. generalize (seq 0 (rf + rp)). intros l. revert x y.
    induction l as [|r l IH]; intros x y H; [exact H|]. cbn [fold_left] in H.
    apply (round_injective n rf rp mds ark r x y HN). apply IH. exact H.
  Qed.
  Lemma round2_injective n rf rp (ext int ark : pmat K) r x y : nonsingular n ext -> nonsingular n int ->
    veq K n (poseidon2_round n rf rp alpha ext int ark x r) (poseidon2_round n rf rp alpha ext int ark y r) -> veq K n x y.
  Proof.
    intros HE HI H. unfold poseidon2_round in H. cbv zeta in H.
    set (full := (Nat.ltb r (Nat.div rf 2) || Nat.leb (Nat.div rf 2 + rp) r)%bool) in H.
    apply mv_injective in H; [|destruct full; assumption].
    intros i Hi. specialize (H i Hi). cbv beta in H. destruct (full || Nat.eqb i 0)%bool; [|exact H].
    apply (add_injective _ _ (ark r i)). apply Hpow. exact H.
  Qed.
  Lemma poseidon2_injective n rf rp (ext int ark : pmat K) x y : nonsingular n ext -> nonsingular n int ->
    veq K n (poseidon2 n rf rp alpha ext int ark x) (poseidon2 n rf rp alpha ext int ark y) -> veq K n x y.
  Proof.
    intros HE HI H. apply (mv_injective n ext); [exact HE|]. unfold poseidon2 in H. revert H.
    generalize (mv n ext x) (mv n ext y) (seq 0 (rf + rp)). intros u w l. revert u w.
    induction l as [|r l IH]; intros u w H; [exact H|]. cbn [fold_left] in H.
    apply (round2_injective n rf rp ext int ark r u w HE HI). apply IH. exact H.
  Qed.
End Cauchy.

Section Units.
  Variable K : fld.
  Add Field Kps6 : (fld_theory K).
  Open Scope fld_scope.
  Lemma mul0 (x : K) : 0 * x = 0. Proof. ring. Qed.
  Lemma mul1 (x : K) : x * 1 = x. Proof. ring. Qed.
End Units.

(** x^alpha is injective on a prime field when alpha is prime to p - 1. *)
Lemma pow_injective p (Hp : prime (Z.of_nat p)) alpha : Nat.gcd alpha (p - 1) = 1%nat -> (0 < alpha)%nat ->
  forall x y : Zp (Z.of_nat p) Hp, fpow x alpha = fpow y alpha -> x = y.
Proof.
  intros Hg Ha x y E. set (K := Zp (Z.of_nat p) Hp) in *.
  pose proof (prime_ge_2 _ Hp) as P2.
  destruct (Nat.gcd_bezout_pos alpha (p - 1) Ha) as (a & b & Hb). rewrite Hg in Hb.
  assert (R : forall z : K, fpow (fpow z alpha) a = z).
  { intros z. rewrite <- fpow_mul, Nat.mul_comm, Hb. rewrite fpow_add, fpow_1.
    destruct (f_dec K z f0) as [->|Nz].
    - apply mul0.
    - rewrite Nat.mul_comm, fpow_mul.
      assert (F1 : fpow z (p - 1) = f1).
      { pose proof (fermat_k K p Hp 1 z (prime_frob1 p Hp) Nz) as F. rewrite Nat.pow_1_r in F. exact F. }
      rewrite F1, fpow_one. apply mul1. }
  rewrite <- (R x), <- (R y), E. reflexivity.
Qed.
