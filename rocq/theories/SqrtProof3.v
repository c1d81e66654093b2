(** Roots of unity with a large subgroup, the generated roots, and decompression of a point. *)
From Coq Require Import ZArith Znumtheory Zpow_facts List Bool Arith Lia Ring Field Field_theory.
From Verif Require Import Field Zp BigIntModel BigIntSpec MixedModel MixedProof SemigroupModel SemigroupProof SemigroupExtra FFTSpec FFTProof5 SqrtModel SqrtSpec SqrtProof SqrtProof2.
Import ListNotations.

Lemma odd_split i : (0 < i)%nat -> exists k m, i = (2 ^ k * (2 * m + 1))%nat.
Proof.
  induction i as [i IH] using lt_wf_ind. intros Hi. destruct (Nat.Even_or_Odd i) as [[m E]|[m E]].
  - destruct (IH m) as (k & m' & E'); [lia|lia|]. exists (S k), m'. rewrite pow2_S. lia.
  - exists 0%nat, m. cbn [Nat.pow]. lia.
Qed.
Lemma odd_pow q j : Z.odd q = true -> (0 <= j)%Z -> Z.odd (q ^ j) = true.
Proof. intros Hq Hj. revert j Hj. apply natlike_ind; [reflexivity|]. intros j Hj IH. rewrite Z.pow_succ_r by lia. rewrite Z.odd_mul, Hq, IH. reflexivity. Qed.
Lemma odd_mod q : Z.odd q = true -> (q mod 2 <> 0)%Z.
Proof. intros H E. rewrite Zmod_odd, H in E. discriminate. Qed.
Lemma pow2_not_div q i : Z.odd q = true -> (3 <= q)%Z -> (0 <= i)%Z -> (2 ^ i mod q <> 0)%Z.
Proof.
  intros Hq H3 Hi E. apply Z.mod_divide in E; [|lia].
  assert (R : rel_prime q (2 ^ i)).
  { apply rel_prime_Zpower_r; [lia|]. apply rel_prime_sym. apply prime_rel_prime; [exact prime_2|]. intros D. apply Z.mod_divide in D; [|lia]. exact (odd_mod q Hq D). }
  assert (q | 1)%Z. { apply (Gauss q (2 ^ i) 1); [rewrite Z.mul_1_r; exact E|exact R]. }
  apply Z.divide_pos_le in H; lia.
Qed.

Lemma decompose_some q n i j : Z.odd q = true -> (3 <= q)%Z -> (0 <= i)%Z -> (0 <= j)%Z -> n = (2 ^ i * q ^ j)%Z -> (n < 2 ^ 64)%Z -> decompose q n = Some (j, i).
Proof.
  intros Ho H3 Hi Hj En Hn. assert (0 < 2 ^ i)%Z by (apply Z.pow_pos_nonneg; lia). assert (0 < q ^ j)%Z by (apply Z.pow_pos_nonneg; lia).
  assert (P : (0 < n)%Z) by nia. unfold decompose.
  destruct (adicity_full q n ltac:(lia) P) as (_ & _ & _ & _ & U). rewrite <- (U j (2 ^ i)%Z Hj); [|lia|apply pow2_not_div; assumption].
  destruct (adicity_full 2 n ltac:(lia) P) as (_ & _ & _ & _ & U2). rewrite <- (U2 i (q ^ j)%Z Hi); [|lia|apply odd_mod, odd_pow; assumption].
  replace (q ^ j * 2 ^ i)%Z with n by lia. unfold trunc. rewrite Z.mod_small by lia. rewrite Z.eqb_refl. reflexivity.
Qed.
Lemma decompose_inv q n i j : Z.odd q = true -> (3 <= q)%Z -> (0 < n < 2 ^ 64)%Z -> decompose q n = Some (j, i) -> (0 <= i)%Z /\ (0 <= j)%Z /\ n = (2 ^ i * q ^ j)%Z.
Proof.
  intros Ho H3 Hn E. unfold decompose in E.
  destruct (adicity_spec q n ltac:(lia) ltac:(lia)) as (t & A1 & E1 & _). destruct (adicity_spec 2 n ltac:(lia) ltac:(lia)) as (t2 & B1 & E2 & _).
  set (qa := compute_adicity q n) in *. set (ta := compute_adicity 2 n) in *.
  assert (D : (q ^ qa * 2 ^ ta | n)%Z).
  { assert (R : rel_prime (2 ^ ta) (q ^ qa)).
    { apply rel_prime_Zpower; try lia. apply prime_rel_prime; [exact prime_2|]. intros D. apply Z.mod_divide in D; [|lia]. exact (odd_mod q Ho D). }
    assert (D2 : (2 ^ ta | t)%Z). { apply (Gauss _ (q ^ qa)); [rewrite <- E1; exists t2; lia|exact R]. }
    destruct D2 as [c Ec]. exists c. rewrite E1 at 1. rewrite Ec. ring. }
  assert (0 < 2 ^ ta)%Z by (apply Z.pow_pos_nonneg; lia). assert (0 < q ^ qa)%Z by (apply Z.pow_pos_nonneg; lia).
  assert (L : (q ^ qa * 2 ^ ta <= n)%Z) by (apply Z.divide_pos_le; [lia|exact D]). unfold trunc in E. rewrite Z.mod_small in E by nia.
  destruct (Z.eqb_spec n (q ^ qa * 2 ^ ta)); [|discriminate]. injection E as <- <-. split; [exact B1|]. split; [exact A1|]. lia.
Qed.

Section Root.
  Variable K : fld.
  Add Field Ksq3 : (fld_theory K).
  Open Scope fld_scope.
  Lemma primitive_pow (w : K) a b : (0 < a)%nat -> primitive_root w (a * b) -> primitive_root (w ^ a) b.
  Proof.
    intros Ha [H1 H2]. split; [rewrite <- fpow_mul; exact H1|]. intros i Hi E. rewrite <- fpow_mul in E. apply (H2 (a * i)%nat); [nia|exact E].
  Qed.
  Lemma primitive_half (w : K) s : (0 < s)%nat -> (1 : K) <> - (1) -> w ^ (2 ^ (s - 1)) = - (1) -> primitive_root w (2 ^ s).
  Proof.
    intros Hs N E. split.
    - replace s with (S (s - 1)) by lia. rewrite pow2_S, fpow_mul, E, fpow_2. ring.
    - intros i Hi E1. destruct (odd_split i ltac:(lia)) as (k & m & Ei).
      assert (k < s)%nat. { apply (Nat.pow_lt_mono_r_iff 2); [lia|]. apply Nat.le_lt_trans with i; [rewrite Ei; nia|lia]. }
      apply N. transitivity ((w ^ i) ^ (2 ^ (s - 1 - k))); [rewrite E1, fpow_one; reflexivity|].
      rewrite Ei, <- fpow_mul. replace (2 ^ k * (2 * m + 1) * 2 ^ (s - 1 - k))%nat with (2 ^ (s - 1) * (2 * m + 1))%nat.
      + rewrite fpow_mul, E, fpow_add, fpow_1, fpow_mul, fpow_2. replace (- (1) * - (1) : K) with (1 : K) by ring. rewrite fpow_one. ring.
      + replace (s - 1)%nat with (k + (s - 1 - k))%nat at 1 by lia. rewrite Nat.pow_add_r. lia.
  Qed.
  Lemma iter_pow q m (x : K) : (0 <= q < 2 ^ 64)%Z -> Nat.iter m (fun x => do_pow (1 : K) fmul (fun y => y * y) [q] x) x = x ^ (Z.to_nat q ^ m).
  Proof.
    intros Hq. induction m; [cbn [Nat.iter nat_rect Nat.pow]; rewrite fpow_1; reflexivity|].
    cbn [Nat.iter nat_rect]. fold (Nat.iter m (fun x => do_pow (1 : K) fmul (fun y => y * y) [q] x) x). rewrite IHm.
    rewrite (do_pow_word _ _ _ (fld_monoid K) (fun x => eq_refl)) by exact Hq. rewrite times_fpow, <- fpow_mul, Nat.pow_succ_r'. f_equal. lia.
  Qed.
  Lemma root_large_spec s q a (root : K) n : Z.odd q = true -> (3 <= q < 2 ^ 64)%Z -> (0 < n < 2 ^ 64)%Z ->
    primitive_root root (2 ^ s * Z.to_nat q ^ a) ->
    match get_root_large s q a root n with
    | Some w => primitive_root w (Z.to_nat n)
    | None => ~ exists i j, (i <= s)%nat /\ (j <= a)%nat /\ n = (2 ^ Z.of_nat i * q ^ Z.of_nat j)%Z
    end.
  Proof.
    intros Ho Hq Hn HP. unfold get_root_large. destruct (decompose q n) as [[j i]|] eqn:E.
    - destruct (decompose_inv q n i j Ho ltac:(lia) Hn E) as (I0 & J0 & En).
      destruct (Z.ltb_spec (Z.of_nat s) i); cbn [orb].
      + intros (i' & j' & Hi & Hj & E'). rewrite (decompose_some q n (Z.of_nat i') (Z.of_nat j')) in E by (assumption || lia). injection E as <- <-. lia.
      + destruct (Z.ltb_spec (Z.of_nat a) j).
        * intros (i' & j' & Hi & Hj & E'). rewrite (decompose_some q n (Z.of_nat i') (Z.of_nat j')) in E by (assumption || lia). injection E as <- <-. lia.
        * rewrite iter_square, iter_pow by lia. rewrite <- fpow_mul. apply primitive_pow.
          -- assert (Z.to_nat q ^ (a - Z.to_nat j) <> 0)%nat by (apply Nat.pow_nonzero; lia). pose proof (Nat.pow_nonzero 2 (s - Z.to_nat i)). nia.
          -- replace (Z.to_nat q ^ (a - Z.to_nat j) * 2 ^ (s - Z.to_nat i) * Z.to_nat n)%nat with (2 ^ s * Z.to_nat q ^ a)%nat; [exact HP|].
             assert (EN : Z.to_nat n = (2 ^ Z.to_nat i * Z.to_nat q ^ Z.to_nat j)%nat).
             { apply Nat2Z.inj. rewrite Z2Nat.id, Nat2Z.inj_mul, !Nat2Z.inj_pow, !Z2Nat.id by lia. exact En. }
             rewrite EN. replace s with ((s - Z.to_nat i) + Z.to_nat i)%nat at 1 by lia. replace a with ((a - Z.to_nat j) + Z.to_nat j)%nat at 1 by lia.
             rewrite !Nat.pow_add_r. lia.
    - intros (i' & j' & Hi & Hj & E'). rewrite (decompose_some q n (Z.of_nat i') (Z.of_nat j')) in E by (assumption || lia). discriminate.
  Qed.
End Root.

Section Gen.
  Variable p : Z.
  Hypothesis Hp : prime p.
  Hypothesis Hodd : (2 < p)%Z.
  Let F : fld := Zp p Hp.
  Add Field Ksq4 : (fld_theory F).
  Open Scope fld_scope.

  Lemma two_adic_root_primitive g : ~ fermat_number p -> ~ is_square (mkz p Hp g : F) -> primitive_root (two_adic_root p Hp g) (2 ^ Z.to_nat (gen_two_adicity p)).
  Proof.
    intros NF Hg. destruct (decomp p Hp Hodd) as (T & S0 & ET & G0 & HT & _). pose proof (not_fermat_trace p Hodd T NF ET G0) as NT. specialize (HT NT).
    pose proof (half_eq p Hodd T S0 ET) as EH. apply (primitive_half F); [exact S0|apply m1_neq; assumption|].
    rewrite (root_val p Hp Hodd T) by exact HT. rewrite <- fpow_mul, Nat.mul_comm.
    assert (Ng : (mkz p Hp g : F) <> 0). { intros E. apply Hg. exists 0. change (0 * 0 = (mkz p Hp g : F)). rewrite E. ring. }
    destruct (half_split p Hp Hodd _ (mkz p Hp g : F) EH Ng) as [X|X]; [|exact X]. exfalso. apply Hg. apply (euler_p p Hp Hodd _ _ EH Ng). exact X.
  Qed.
  Lemma large_root_primitive g b a : ~ fermat_number p -> (0 < b)%Z -> (0 <= a)%Z -> (b ^ a | compute_trace 2 (p - 1))%Z ->
    primitive_root (mkz p Hp g : F) (Z.to_nat (p - 1)) ->
    primitive_root (mkz p Hp (gen_large_root p g b a) : F) (2 ^ Z.to_nat (gen_two_adicity p) * Z.to_nat b ^ Z.to_nat a).
  Proof.
    intros NF Hb Ha HD HP. destruct (decomp p Hp Hodd) as (T & S0 & ET & G0 & HT & _). pose proof (not_fermat_trace p Hodd T NF ET G0) as NT. specialize (HT NT).
    destruct HD as [c Ec]. rewrite HT in Ec.
    assert (Pb : (0 < b ^ a)%Z) by (apply Z.pow_pos_nonneg; lia). assert (Pc : (0 < c)%Z) by nia.
    assert (Lp : (b ^ a < p)%Z).
    { assert (Z.of_nat (2 * T + 1) <= p - 1)%Z; [|nia].
      rewrite <- (Z2Nat.id (p - 1)) by lia. apply Nat2Z.inj_le. rewrite ET. pose proof (Nat.pow_nonzero 2 (Z.to_nat (gen_two_adicity p))). nia. }
    assert (EV : (mkz p Hp (gen_large_root p g b a) : F) = (mkz p Hp g : F) ^ Z.to_nat c).
    { apply zp_eq. rewrite (zpow_val p Hp Hodd). unfold gen_large_root. rewrite !zval_mkz. rewrite (Z.mod_small (b ^ a)) by lia. rewrite HT, Ec, Z.div_mul by lia.
      rewrite Z.mod_mod, Z2Nat.id by lia. rewrite Zpower_mod by lia. reflexivity. }
    rewrite EV. apply primitive_pow; [lia|].
    replace (Z.to_nat c * (2 ^ Z.to_nat (gen_two_adicity p) * Z.to_nat b ^ Z.to_nat a))%nat with (Z.to_nat (p - 1)); [exact HP|].
    rewrite ET. assert (E2 : (2 * T + 1 = Z.to_nat c * Z.to_nat b ^ Z.to_nat a)%nat).
    { apply Nat2Z.inj. rewrite Ec, Nat2Z.inj_mul, Nat2Z.inj_pow, !Z2Nat.id by lia. reflexivity. }
    rewrite E2. lia.
  Qed.

  (** Decompression. *)
  Variable sqrt : F -> option F.
  Hypothesis Hsqrt : forall a : F, match sqrt a with Some x => x * x = a | None => ~ is_square a end.
  Lemma zval_opp (y : F) : y <> 0 -> zval p (- y) = (p - zval p y)%Z.
  Proof.
    intros Hy. pose proof (zval_nz p Hp Hodd y Hy). change ((- zval p y) mod p = p - zval p y)%Z.
    replace (- zval p y)%Z with (p - zval p y + (-1) * p)%Z by lia. rewrite Z.mod_add by lia. apply Z.mod_small. lia.
  Qed.
  Lemma even_opp (y : F) : y <> 0 -> even_rep p (- y) = negb (even_rep p y).
  Proof.
    intros Hy. unfold even_rep. rewrite zval_opp by exact Hy. rewrite Z.even_sub. rewrite <- Z.negb_odd, (p_odd p Hp Hodd). destruct (Z.even (zval p y)); reflexivity.
  Qed.
  Lemma sq_pm (x y : F) : x * x = y * y -> x = y \/ x = - y.
  Proof.
    intros E. assert (E2 : (x - y) * (x + y) = 0) by (transitivity (x * x - y * y); [ring|rewrite E; ring]).
    apply fmul_integral in E2. destruct E2 as [E2|E2]; [left; apply (proj1 (fsub_eq0 F _ _)); exact E2|right].
    transitivity ((x + y) - y); [ring|rewrite E2; ring].
  Qed.
  Lemma opp_zero : - (0 : F) = 0. Proof. ring. Qed.
  Lemma rhs_eq (az : bool) (ca cb x : F) : (az = true -> ca = 0) -> (if az then x * x * x + cb else x * x * x + cb + ca * x) = x * x * x + ca * x + cb.
  Proof. intros H. destruct az; [rewrite (H eq_refl); ring|ring]. Qed.
  Lemma get_ys_spec az (ca cb x : F) : (az = true -> ca = 0) ->
    match get_ys sqrt (even_rep p) az ca cb x with
    | Some (ey, oy) => on_curve ca cb x ey /\ oy = - ey /\ even_rep p ey = true /\ (even_rep p oy = true -> oy = 0) /\ (forall y, on_curve ca cb x y -> y = ey \/ y = oy)
    | None => forall y, ~ on_curve ca cb x y
    end.
  Proof.
    intros Haz. unfold get_ys. cbv zeta. rewrite (rhs_eq az ca cb x Haz). pose proof (Hsqrt (x * x * x + ca * x + cb)) as HS.
    destruct (sqrt _) as [y|].
    - destruct (even_rep p y) eqn:EY.
      + split; [exact HS|]. split; [reflexivity|]. split; [exact EY|]. split.
        * intros E. destruct (f_dec F y 0) as [-> | Ny]; [apply opp_zero|]. rewrite even_opp, EY in E by exact Ny. discriminate.
        * intros y' Hy'. apply sq_pm. unfold on_curve in Hy'. rewrite Hy'. symmetry. exact HS.
      + assert (Ny : y <> 0). { intros ->. unfold even_rep in EY. change (zval p (0 : F)) with (0 mod p)%Z in EY. rewrite Zmod_0_l in EY. discriminate. }
        split; [unfold on_curve; rewrite <- HS; ring|]. split; [ring|]. split; [rewrite even_opp, EY by exact Ny; reflexivity|]. split; [rewrite EY; discriminate|].
        intros y' Hy'. apply or_comm. apply sq_pm. unfold on_curve in Hy'. rewrite Hy'. symmetry. exact HS.
    - intros y Hy. apply HS. exists y. exact Hy.
  Qed.
  Lemma create_spec_x az (ca cb x : F) odd : (az = true -> ca = 0) ->
    match create_from_x sqrt (even_rep p) az ca cb x odd with
    | Some (x', y) => x' = x /\ on_curve ca cb x y /\ (even_rep p y = negb odd \/ y = 0)
    | None => forall y, ~ on_curve ca cb x y
    end.
  Proof.
    intros Haz. unfold create_from_x. pose proof (get_ys_spec az ca cb x Haz) as H. destruct (get_ys sqrt (even_rep p) az ca cb x) as [[ey oy]|]; [|exact H].
    destruct H as (H1 & H2 & H3 & H4 & _). split; [reflexivity|]. destruct odd.
    - split; [unfold on_curve in *; rewrite H2, <- H1; ring|]. destruct (even_rep p oy) eqn:E; [right; apply H4; reflexivity|left; reflexivity].
    - split; [exact H1|]. left. exact H3.
  Qed.
  Lemma create_roundtrip az (ca cb x y : F) : (az = true -> ca = 0) -> on_curve ca cb x y ->
    create_from_x sqrt (even_rep p) az ca cb x (negb (even_rep p y)) = Some (x, y).
  Proof.
    intros Haz Hy. unfold create_from_x. pose proof (get_ys_spec az ca cb x Haz) as H. destruct (get_ys sqrt (even_rep p) az ca cb x) as [[ey oy]|]; [|exfalso; exact (H y Hy)].
    destruct H as (H1 & H2 & H3 & H4 & H5). f_equal. f_equal. destruct (H5 y Hy) as [-> | ->].
    - rewrite H3. reflexivity.
    - destruct (even_rep p oy) eqn:E; cbn [negb]; [|reflexivity]. specialize (H4 eq_refl). rewrite H4 in *.
      transitivity (- (- ey)); [ring|]. rewrite <- H2. apply opp_zero.
  Qed.
End Gen.
