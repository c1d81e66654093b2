(** The Frobenius map in fields of characteristic p, and in the extension field models. *)
From Coq Require Import ZArith List Bool Arith Lia Znumtheory Ring Field.
From Verif Require Import Field Zp ExtFieldModel ExtFieldSpec ExtFieldProof QuarticProof.
Import ListNotations.
Open Scope fld_scope.

(** Binomial coefficients. *)
Fixpoint binom (n k : nat) : nat :=
  match n, k with
  | _, O => 1
  | O, S _ => 0
  | S n', S k' => (binom n' k' + binom n' (S k'))%nat
  end.
Lemma binom_0 n : binom n 0 = 1%nat. Proof. destruct n; reflexivity. Qed.
Lemma binom_gt : forall n k, (n < k)%nat -> binom n k = 0%nat.
Proof.
  induction n; intros [|k] H; try lia; cbn [binom]; [reflexivity|]. rewrite !IHn by lia. reflexivity.
Qed.
Lemma binom_diag : forall n, binom n n = 1%nat.
Proof. induction n; cbn [binom]; [reflexivity|]. rewrite IHn, binom_gt by lia. reflexivity. Qed.
Lemma binom_absorb : forall n k, (S k * binom (S n) (S k) = S n * binom n k)%nat.
Proof.
  induction n; intros k.
  - destruct k; cbn [binom]; lia.
  - destruct k.
    + pose proof (IHn 0%nat) as E. cbn [binom] in *. rewrite ?binom_0 in *. lia.
    + cbn [binom] in *. pose proof (IHn k) as E1. pose proof (IHn (S k)) as E2. cbn [binom] in *. nia.
Qed.

Section Char.
  Variable K : fld.
  Add Field Kf4 : (fld_theory K).

  Lemma fsum_seq_S (f : nat -> K) n : fsum (map f (seq 0 (S n))) = fsum (map f (seq 0 n)) + f n.
  Proof. rewrite seq_S, map_app, fsum_app. cbn [map fsum Nat.add]. ring. Qed.
  Lemma fsum_seq_shift (f : nat -> K) n : fsum (map f (seq 0 (S n))) = f 0%nat + fsum (map (fun i => f (S i)) (seq 0 n)).
  Proof. cbn [seq map fsum]. rewrite <- seq_shift, map_map. reflexivity. Qed.

  Lemma binomial (x y : K) : forall n,
    (x + y) ^ n = fsum (map (fun k => fnat (binom n k) * (x ^ k * y ^ (n - k))) (seq 0 (S n))).
  Proof.
    induction n.
    - cbn. ring.
    - cbn [fpow]. rewrite IHn.
      rewrite (fsum_seq_shift (fun k => fnat (binom (S n) k) * (x ^ k * y ^ (S n - k)))).
      rewrite (fsum_map_ext K (fun i => fnat (binom (S n) (S i)) * (x ^ S i * y ^ (S n - S i)))
                 (fun i => x * (fnat (binom n i) * (x ^ i * y ^ (n - i))) + fnat (binom n (S i)) * (x ^ S i * y ^ (n - i)))).
      2:{ intros i _. cbn [binom]. rewrite fnat_add. replace (S n - S i)%nat with (n - i)%nat by lia. cbn [fpow]. ring. }
      rewrite fsum_map_add, fsum_map_mul.
      rewrite (fsum_seq_S (fun i => fnat (binom n (S i)) * (x ^ S i * y ^ (n - i)))), (binom_gt n (S n)) by lia.
      rewrite (fsum_seq_shift (fun k => fnat (binom n k) * (x ^ k * y ^ (n - k))) n) at 1.
      match goal with |- (x + y) * (?a + ?b) = ?c + (x * ?d + (?e + ?g)) =>
        replace d with (a + b) by (symmetry; apply (fsum_seq_shift (fun k => fnat (binom n k) * (x ^ k * y ^ (n - k))) n));
        replace e with (y * b); [cbn [fnat]|] end.
      + rewrite !binom_0. replace (n - 0)%nat with n by lia. replace (S n - 0)%nat with (S n) by lia. cbn [fpow]. ring.
      + rewrite <- fsum_map_mul. apply fsum_map_ext. intros i Hi. apply in_seq in Hi.
        replace (n - i)%nat with (S (n - S i)) by lia. cbn [fpow]. ring.
  Qed.

  Variable p : nat.
  Hypothesis Hp : prime (Z.of_nat p).
  Hypothesis Hchar : (fnat p : K) = 0.

  Lemma p_ge_2 : (2 <= p)%nat. Proof. pose proof (prime_ge_2 _ Hp). lia. Qed.
  Lemma binom_prime k : (0 < k < p)%nat -> exists m, binom p k = (p * m)%nat.
  Proof.
    intros Hk. destruct k as [|k]; [lia|]. destruct p as [|n] eqn:En; [lia|].
    pose proof (binom_absorb n k) as E.
    assert (D : (Z.of_nat (S n) | Z.of_nat (S k) * Z.of_nat (binom (S n) (S k)))%Z).
    { exists (Z.of_nat (binom n k)). rewrite <- !Nat2Z.inj_mul. lia. }
    apply prime_mult in D; [|exact Hp]. destruct D as [D|D].
    - apply Z.divide_pos_le in D; lia.
    - destruct D as [m Em]. exists (Z.to_nat m). nia.
  Qed.
  Lemma frob_add1 (x y : K) : (x + y) ^ p = x ^ p + y ^ p.
  Proof.
    pose proof p_ge_2 as P2. rewrite binomial. rewrite fsum_seq_S, binom_diag.
    pose proof binom_prime as BP. pose proof Hchar as HC. clear Hchar Hp.
    destruct p as [|n]; [lia|]. rewrite fsum_seq_shift, binom_0.
    rewrite fsum_map_zero.
    - replace (S n - 0)%nat with (S n) by lia. rewrite Nat.sub_diag. cbn [fnat fpow]. ring.
    - intros i Hi. apply in_seq in Hi. destruct (BP (S i)) as [m Em]; [lia|].
      rewrite Em, fnat_mul, HC. ring.
  Qed.
  Lemma frob_add e (x y : K) : (x + y) ^ (p ^ e) = x ^ (p ^ e) + y ^ (p ^ e).
  Proof.
    revert x y. induction e; intros; [cbn; ring|].
    rewrite Nat.pow_succ_r', !fpow_mul, frob_add1, IHe. reflexivity.
  Qed.
  Lemma frob_mul e (x y : K) : (x * y) ^ (p ^ e) = x ^ (p ^ e) * y ^ (p ^ e).
  Proof. apply fpow_mul_base. Qed.
  Lemma pow_p_compose a b (x : K) : (x ^ (p ^ a)) ^ (p ^ b) = x ^ (p ^ (a + b)).
  Proof. rewrite <- fpow_mul, Nat.pow_add_r. reflexivity. Qed.
  (** In a field of p^k elements the exponent of the Frobenius map matters modulo k. *)
  Lemma frob_period k e : (forall x : K, x ^ (p ^ k) = x) -> forall x : K, x ^ (p ^ (e + k)) = x ^ (p ^ e).
  Proof. intros H x. rewrite <- pow_p_compose. apply H. Qed.
  Lemma frob_mod k e : (0 < k)%nat -> (forall x : K, x ^ (p ^ k) = x) -> forall x : K, x ^ (p ^ (e mod k)) = x ^ (p ^ e).
  Proof.
    intros Hk H x. rewrite (Nat.div_mod e k) at 2 by lia. rewrite Nat.add_comm, Nat.mul_comm.
    induction (Nat.div e k) as [|t IH].
    - cbn [Nat.mul]. rewrite Nat.add_0_r. reflexivity.
    - replace (e mod k + S t * k)%nat with (e mod k + t * k + k)%nat by lia. rewrite frob_period by exact H. exact IH.
  Qed.
  (** Fermat: every non-zero element has order dividing p^k - 1. *)
  Lemma fermat_k k (x : K) : (forall x : K, x ^ (p ^ k) = x) -> x <> 0 -> x ^ (p ^ k - 1) = 1.
  Proof.
    intros H Hx. pose proof p_ge_2 as P2. assert (1 <= p ^ k)%nat by (pose proof (Nat.pow_nonzero p k); lia).
    apply (fmul_cancel_l K x); [exact Hx|]. rewrite <- fpow_S. replace (S (p ^ k - 1)) with (p ^ k)%nat by lia.
    rewrite H. ring.
  Qed.
End Char.

(** The prime field. *)
Section Prime.
  Variable p : nat.
  Hypothesis Hp : prime (Z.of_nat p).
  Let F : fld := Zp (Z.of_nat p) Hp.
  Lemma zval_fnat n : zval (Z.of_nat p) (fnat n : F) = (Z.of_nat n mod Z.of_nat p)%Z.
  Proof.
    pose proof (prime_ge_2 _ Hp). induction n; [reflexivity|].
    cbn [fnat]. change (zval (Z.of_nat p) ((1 : F) + fnat n)) with ((1 mod Z.of_nat p + zval (Z.of_nat p) (fnat n : F)) mod Z.of_nat p)%Z.
    rewrite IHn, <- Z.add_mod by lia. f_equal. lia.
  Qed.
  Lemma zval_fpow (x : F) n : zval (Z.of_nat p) (x ^ n) = (zval (Z.of_nat p) x ^ Z.of_nat n mod Z.of_nat p)%Z.
  Proof.
    pose proof (prime_ge_2 _ Hp). induction n; [reflexivity|].
    cbn [fpow]. change (zval (Z.of_nat p) (x * x ^ n)) with ((zval (Z.of_nat p) x * zval (Z.of_nat p) (fpow x n)) mod Z.of_nat p)%Z.
    rewrite IHn, Z.mul_mod_idemp_r by lia. f_equal. rewrite Nat2Z.inj_succ, Z.pow_succ_r by lia. reflexivity.
  Qed.
  Lemma prime_char : (fnat p : F) = 0.
  Proof.
    apply zp_eq. rewrite zval_fnat. change (zval (Z.of_nat p) (0 : F)) with (0 mod Z.of_nat p)%Z.
    rewrite Z_mod_same_full. rewrite Zmod_0_l. reflexivity.
  Qed.
  Lemma prime_frob (x : F) : x ^ p = x.
  Proof.
    pose proof (prime_ge_2 _ Hp) as P2. apply zp_eq. rewrite zval_fpow. pose proof (zval_range _ x) as R.
    destruct (Z.eq_dec (zval (Z.of_nat p) x) 0) as [E|N].
    - rewrite E, Z.pow_0_l by lia. apply Z.mod_0_l. lia.
    - replace (Z.of_nat p) with (Z.succ (Z.of_nat p - 1))%Z at 2 by lia. rewrite Z.pow_succ_r by lia.
      rewrite <- Z.mul_mod_idemp_r, (fermat _ Hp) by lia. rewrite Z.mul_1_r. apply Z.mod_small. exact R.
  Qed.
  Lemma prime_frob1 (x : F) : x ^ (p ^ 1) = x.
  Proof. rewrite Nat.pow_1_r. apply prime_frob. Qed.
  Lemma fnat_neq0 n : ~ (Z.of_nat p | Z.of_nat n)%Z -> (fnat n : F) <> 0.
  Proof.
    intros H E. apply H. apply (f_equal (zval (Z.of_nat p))) in E. rewrite zval_fnat in E.
    change (zval (Z.of_nat p) (0 : F)) with (0 mod Z.of_nat p)%Z in E. rewrite Zmod_0_l in E.
    apply Z.mod_divide; [pose proof (prime_ge_2 _ Hp); lia|exact E].
  Qed.
End Prime.
