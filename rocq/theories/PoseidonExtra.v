(** Poseidon: the statements of PoseidonProps.v assembled from the proofs. *)
From Coq Require Import ZArith Znumtheory List Bool Arith Lia Ring Field Field_theory.
From Verif Require Import Field Zp BigIntModel SmallFieldModel SmallFieldSpec SmallFieldProof SemigroupModel PolyModel PoseidonModel PoseidonSpec PoseidonProof PoseidonProof2 PoseidonProof3 PoseidonProof4 PoseidonProof5 PoseidonProof6.
Import ListNotations.

Section Extra.
  Variable K : fld.
  Add Field Kps8 : (fld_theory K).
  Open Scope fld_scope.

  (** Inverses of the sizes 1 and 2, for the examples. *)
  Definition inv_small (n : nat) (m : pmat K) : pmat K :=
    match n with
    | 1%nat => fun _ _ => finv (m 0%nat 0%nat)
    | _ => let e := finv (m 0%nat 0%nat * m 1%nat 1%nat - m 0%nat 1%nat * m 1%nat 0%nat) in
           fun i j => e * match i, j with
                          | 0%nat, 0%nat => m 1%nat 1%nat
                          | 0%nat, _ => - m 0%nat 1%nat
                          | _, 0%nat => - m 1%nat 0%nat
                          | _, _ => m 0%nat 0%nat
                          end
    end.
  Lemma inv_small_1 : inverts inv_small 1.
  Proof.
    intros m Hm. assert (N : m 0%nat 0%nat <> 0).
    { intros E. apply (f1_neq_0 K). apply (Hm (fun _ => 1)) with (i := 0%nat); [|lia]. intros i Hi. unfold mv. cbn [seq map fsum].
      destruct i; [rewrite E; ring|lia]. }
    intros i j Hi Hj. destruct i; [|lia]. destruct j; [|lia]. cbn [seq map fsum inv_small Nat.eqb]. split; field; exact N.
  Qed.
  Lemma inv_small_2 : inverts inv_small 2.
  Proof.
    intros m Hm. set (a := m 0%nat 0%nat). set (b := m 0%nat 1%nat). set (c := m 1%nat 0%nat). set (d := m 1%nat 1%nat).
    assert (N : a * d - b * c <> 0).
    { intros E.
      assert (A : forall v : pvec K, a * v 0%nat + b * v 1%nat = 0 -> c * v 0%nat + d * v 1%nat = 0 -> v 0%nat = 0 /\ v 1%nat = 0).
      { intros v H1 H2. assert (H : forall i, (i < 2)%nat -> v i = 0).
        { apply Hm. intros i Hi. unfold mv. cbn [seq map fsum]. destruct i as [|[|i]]; [| |lia].
          - transitivity (a * v 0%nat + b * v 1%nat); [unfold a, b; ring|exact H1].
          - transitivity (c * v 0%nat + d * v 1%nat); [unfold c, d; ring|exact H2]. }
        split; apply H; lia. }
      destruct (A (fun i => match i with 0%nat => d | _ => - c end)) as [D C]; [rewrite <- E; ring|ring|].
      destruct (A (fun i => match i with 0%nat => b | _ => - a end)) as [B A0]; [ring| |].
      { transitivity (- (a * d - b * c)); [ring|rewrite E; ring]. }
      destruct (A (fun _ => 1)) as [O _].
      - rewrite B. transitivity (- - a); [ring|rewrite A0; ring].
      - rewrite D. transitivity (- - c); [ring|rewrite C; ring].
      - exact (f1_neq_0 K O). }
    intros i j Hi Hj. cbn [seq map fsum inv_small].
    destruct i as [|[|i]]; [| |lia]; (destruct j as [|[|j]]; [| |lia]); cbn [Nat.eqb]; fold a b c d; split; field; exact N.
  Qed.

  Lemma cauchy_use n xs ys (m : pmat K) : cauchy_mds n xs ys = Some m ->
    (forall i j, (i < n)%nat -> (j < n)%nat -> xs i = xs j -> i = j) -> (forall i j, (i < n)%nat -> (j < n)%nat -> ys i = ys j -> i = j) ->
    is_mds n m /\ nonsingular n m /\ nonsingular (n - 1) (fun i j => m (S i) (S j)).
  Proof. intros H Hx Hy. pose proof (cauchy_mds_ok K n xs ys m H Hx Hy) as M. split; [exact M|]. apply mds_nonsingular. exact M. Qed.

  Lemma cauchy_none n xs ys : cauchy_mds (K := K) n xs ys = None <-> exists i j, (i < n)%nat /\ (j < n)%nat /\ xs i + ys j = 0.
  Proof.
    unfold cauchy_mds. set (b := forallb _ _). assert (H : b = true <-> forall i j, (i < n)%nat -> (j < n)%nat -> xs i + ys j <> 0).
    { unfold b. rewrite forallb_forall. split.
      - intros H i j Hi Hj. specialize (H i ltac:(apply in_seq; lia)). rewrite forallb_forall in H. specialize (H j ltac:(apply in_seq; lia)).
        apply negb_true_iff in H. apply feqb_neq in H. exact H.
      - intros H i Hi. apply in_seq in Hi. apply forallb_forall. intros j Hj. apply in_seq in Hj. apply negb_true_iff, feqb_neq, H; lia. }
    destruct b eqn:Eb.
    - split; [discriminate|]. intros (i & j & Hi & Hj & E). exfalso. exact (proj1 H eq_refl i j Hi Hj E).
    - split; [intros _|reflexivity]. unfold b in Eb. clear H b.
      assert (X : existsb (fun i => existsb (fun j => feqb (xs i + ys j) 0) (seq 0 n)) (seq 0 n) = true).
      { destruct (existsb _ _) eqn:E1; [reflexivity|]. exfalso. apply (eq_true_false_abs _ (eq_refl true)). rewrite <- Eb. symmetry.
        apply forallb_forall. intros i Hi. apply forallb_forall. intros j Hj. destruct (feqb (xs i + ys j) 0) eqn:E2; [|reflexivity].
        exfalso. rewrite (proj2 (existsb_exists _ _)) in E1; [discriminate E1|]. exists i. split; [exact Hi|]. apply existsb_exists. exists j. split; [exact Hj|exact E2]. }
      apply existsb_exists in X. destruct X as (i & Hi & X). apply existsb_exists in X. destruct X as (j & Hj & X).
      apply in_seq in Hi. apply in_seq in Hj. exists i, j. repeat split; try lia. apply feqb_eq. exact X.
  Qed.
  Lemma cauchy_full n xs ys :
    (forall m : pmat K, cauchy_mds n xs ys = Some m ->
      (forall i j, (i < n)%nat -> (j < n)%nat -> xs i = xs j -> i = j) -> (forall i j, (i < n)%nat -> (j < n)%nat -> ys i = ys j -> i = j) ->
      is_mds n m /\ nonsingular n m /\ nonsingular (n - 1) (fun i j => m (S i) (S j))) /\
    (cauchy_mds n xs ys = None <-> exists i j, (i < n)%nat /\ (j < n)%nat /\ xs i + ys j = 0).
  Proof. split; [intros m; apply cauchy_use|apply cauchy_none]. Qed.
  Lemma external_full (d : vendor) w :
    let m4 : nat -> nat -> K := match d with Horizen => m4_horizen | Plonky3 => m4_plonky3 end in
    (supported_width w -> forall v, exists y, external_apply d w v = Some y /\ forall i, (i < w)%nat -> y i = mv w (external_matrix m4 w) v i) /\
    (supported_width w -> exists m, external_construct d w = Some m /\ forall i j, (i < w)%nat -> (j < w)%nat -> m i j = external_matrix m4 w i j) /\
    (~ supported_width w -> forall v : pvec K, external_apply d w v = None /\ external_construct (K := K) d w = None) /\
    (supported_width w -> (match d with Horizen => fnat 2 | Plonky3 => fnat 35 end : K) <> 0 ->
     (fnat (if Nat.leb w 3 then w + 1 else Nat.div w 4 + 1)%nat : K) <> 0 -> nonsingular w (external_matrix m4 w)).
  Proof.
    cbv zeta. split; [intros H v; exact (external_ok K d w v H)|]. split; [intros H; exact (construct_ok K d w H)|].
    split; [intros H v; exact (external_unsupported K d w v H)|]. exact (external_nonsingular K d w).
  Qed.
  Lemma permute2_full (d : vendor) w rf rp alpha (diag : pvec K) (ark : pmat K) (v : pvec K) : supported_width w -> (0 <= alpha < 2 ^ 32)%Z ->
    exists y, permute2 d (internal_apply w diag) w rf rp alpha ark v = Some y /\
      forall i, (i < w)%nat -> y i = poseidon2 w rf rp (Z.to_nat alpha) (external_matrix (match d with Horizen => m4_horizen | Plonky3 => m4_plonky3 end) w)
                                 (ones_with_diagonal (fun i => diag i + 1)) ark v i.
  Proof. intros Hw Ha. exact (permute2_ok K d w rf rp alpha _ ark _ Hw Ha (internal_ok K w diag) v). Qed.

  Lemma diagonal_nonsingular w (d : pvec K) : (forall i, (i < w)%nat -> d i <> 0) -> 1 + fsum (map (fun i => finv (d i)) (seq 0 w)) <> 0 ->
    nonsingular w (ones_with_diagonal (fun i => d i + 1)).
  Proof.
    intros Hd Hs v Hv. set (s := fsum (map v (seq 0 w))).
    assert (V : forall i, (i < w)%nat -> v i = - s * finv (d i)).
    { intros i Hi. specialize (Hv i Hi). rewrite two_ones in Hv by exact Hi. fold s in Hv. specialize (Hd i Hi).
      assert (E : d i * v i = - s). { transitivity ((d i + 1 - 1) * v i + s - s); [ring|rewrite Hv; ring]. }
      rewrite <- E. field. exact Hd. }
    assert (S0 : s = 0).
    { apply (fmul_cancel_l K _ _ _ Hs). transitivity (s + s * fsum (map (fun i => finv (d i)) (seq 0 w))); [ring|].
      unfold s at 1. rewrite (fsum_map_ext K v (fun i => - s * finv (d i))) by (intros i Hi; apply in_seq in Hi; apply V; lia).
      rewrite (fsum_map_mul K). ring. }
    intros i Hi. rewrite (V i Hi), S0. ring.
  Qed.
  Lemma packed_ok (r two32 : K) w d (v : pvec K) i : r * two32 = 1 -> (i < w)%nat ->
    internal_apply_packed (Some r) w d v i * two32 = fsum (map v (seq 0 w)) + d i * v i /\
    internal_apply_packed None w d v i = fsum (map v (seq 0 w)) + d i * v i.
  Proof.
    intros Hr Hi. unfold internal_apply_packed, internal_apply. rewrite (fold_sum K v). split; [|ring].
    transitivity ((v i * d i + fsum (map v (seq 0 w))) * (r * two32)); [ring|rewrite Hr; ring].
  Qed.
End Extra.

Open Scope nat_scope.
(** Permute is injective on states. *)
Lemma permute_injective p (Hp : prime (Z.of_nat p)) inv n h rp alpha (ark mds junk : pmat (Zp (Z.of_nat p) Hp)) c x y u v :
  2 <= n -> 1 <= h -> (0 < alpha < 2 ^ 32)%Z -> inverts inv n -> inverts inv (n - 1) -> nonsingular n mds ->
  nonsingular (n - 1) (fun i j => mds (S i) (S j)) -> Nat.gcd (Z.to_nat alpha) (p - 1) = 1 ->
  create_config inv n (2 * h) rp ark mds junk = Some c ->
  permute n (2 * h) rp alpha c x = Some u -> permute n (2 * h) rp alpha c y = Some v -> (forall i, i < n -> u i = v i) -> forall i, i < n -> x i = y i.
Proof.
  intros Hn Hh Ha I1 I2 N1 N2 G Hc Hu Hv E.
  destruct (permute_ok _ inv n h rp alpha ark mds junk Hn Hh ltac:(lia) I1 I2 N1 N2) as (c' & Ec & H). rewrite Hc in Ec. injection Ec as <-.
  destruct (H x) as (u' & Eu & Vu), (H y) as (v' & Ev & Vv). rewrite Hu in Eu. rewrite Hv in Ev. injection Eu as <-. injection Ev as <-.
  apply (poseidon_injective _ (Z.to_nat alpha) (pow_injective p Hp _ G ltac:(lia)) n (2 * h) rp mds ark x y N1).
  intros i Hi. rewrite <- (Vu i Hi), <- (Vv i Hi). apply E. exact Hi.
Qed.
Lemma permute2_injective p (Hp : prime (Z.of_nat p)) (d : vendor) w rf rp alpha (ark : pmat (Zp (Z.of_nat p) Hp)) (diag : pvec (Zp (Z.of_nat p) Hp)) x y u v :
  let K := Zp (Z.of_nat p) Hp in
  supported_width w -> (0 < alpha < 2 ^ 32)%Z -> Nat.gcd (Z.to_nat alpha) (p - 1) = 1 ->
  (match d with Horizen => fnat 2 | Plonky3 => fnat 35 end : K) <> f0 ->
  (fnat (if Nat.leb w 3 then w + 1 else Nat.div w 4 + 1) : K) <> f0 ->
  nonsingular w (ones_with_diagonal (fun i => diag i + f1)%fld) ->
  permute2 d (internal_apply w diag) w rf rp alpha ark x = Some u -> permute2 d (internal_apply w diag) w rf rp alpha ark y = Some v ->
  (forall i, i < w -> u i = v i) -> forall i, i < w -> x i = y i.
Proof.
  intros K Hw Ha G Hd Hk Hi Hu Hv E. subst K.
  pose proof (permute2_ok _ d w rf rp alpha _ ark _ Hw ltac:(lia) (internal_ok _ w diag)) as H.
  destruct (H x) as (u' & Eu & Vu), (H y) as (v' & Ev & Vv). rewrite Hu in Eu. rewrite Hv in Ev. injection Eu as <-. injection Ev as <-.
  apply (poseidon2_injective _ (Z.to_nat alpha) (pow_injective p Hp _ G ltac:(lia)) w rf rp _ _ ark x y (external_nonsingular _ d w Hw Hd Hk) Hi).
  intros i Hi'. rewrite <- (Vu i Hi'), <- (Vv i Hi'). apply E. exact Hi'.
Qed.

Open Scope Z_scope.
(** The decoded values. *)
Lemma zsum_decode p v : Z.odd p = true -> 2 < p < 2 ^ 31 -> in_range p v -> (zsum (map (sfm_value p) v) * 2 ^ 32) mod p = zsum v mod p.
Proof.
  intros Ho Hp. induction 1 as [|x v Hx _ IH]; cbn [map zsum fold_right]; [reflexivity|]. fold (zsum v) (zsum (map (sfm_value p) v)).
  pose proof (proj2 (dec_range p Ho Hp x Hx)) as E. unfold eqm in E. rewrite Z.mul_add_distr_r, Z.add_mod, IH, E, <- Z.add_mod by lia. reflexivity.
Qed.
Lemma p3_mont_decoded p v shifts : Z.odd p = true -> 2 < p < 2 ^ 31 -> v <> [] -> in_range p v -> Forall (fun s => 0 <= s <= 31) shifts ->
  (length v <= S (length shifts))%nat -> Z.of_nat (length v) < 2 ^ 31 ->
  exists out, p3_apply_mont p v shifts = Some out /\ length out = length v /\
    forall i x, nth_error v i = Some x -> exists y, nth_error out i = Some y /\ 0 <= y < p /\
      (sfm_value p y * 2 ^ 32) mod p =
      (zsum (map (sfm_value p) v) + (match i with O => -2 | S i => 2 ^ nth i shifts 0 end) * sfm_value p x) mod p.
Proof.
  intros Ho Hp Hne Hv Hs Hl Hn. destruct (p3_mont_ok p v shifts Ho Hp Hne Hv Hs Hl Hn) as (out & E & L & H).
  exists out. split; [exact E|]. split; [exact L|]. intros i x Hi. destruct (H i x Hi) as (y & Ey & By & C). exists y.
  split; [exact Ey|]. split; [exact By|]. set (c := match i with O => -2 | S i => 2 ^ nth i shifts 0 end) in *.
  assert (Hx : 0 <= x < p) by (apply (proj1 (Forall_forall _ _) Hv); eapply nth_error_In; exact Hi).
  pose proof (proj2 (dec_range p Ho Hp y By)) as Dy. pose proof (proj2 (dec_range p Ho Hp x Hx)) as Dx. unfold eqm in Dx, Dy. pose proof (zsum_decode p v Ho Hp Hv) as Dv.
  set (S := zsum (map (sfm_value p) v)) in *. set (X := sfm_value p x) in *. set (Y := sfm_value p y) in *.
  rewrite Dy, Z.mod_small by exact By.
  (* y * 2^32 = (S + c X) * 2^32 and 2^32 is a unit *)
  assert (Q : ((S + c * X) * 2 ^ 32) mod p = (y * 2 ^ 32) mod p).
  { rewrite C. rewrite Z.mul_add_distr_r. replace (c * X * 2 ^ 32) with (c * (X * 2 ^ 32)) by ring.
    rewrite Z.add_mod, Dv, (Z.mul_mod c), Dx, <- Z.mul_mod, <- Z.add_mod by lia. reflexivity. }
  pose proof (Z.mod_pos_bound (y * 2 ^ 32) p ltac:(lia)) as B.
  assert (A1 := dec_eq p Ho Hp _ y B). assert (A2 := dec_eq p Ho Hp _ (S + c * X) B). unfold eqm in A1, A2.
  rewrite Z.mod_mod in A1, A2 by lia. specialize (A1 eq_refl). specialize (A2 Q). rewrite A2 in A1. rewrite A1, Z.mod_small by exact By. reflexivity.
Qed.

Lemma copy_loses_shifts p shifts ark v x : p2_mix_partial p (p2_read (p2_write (p2_create_shifts shifts ark))) (v :: x :: nil) = None.
Proof. reflexivity. Qed.
