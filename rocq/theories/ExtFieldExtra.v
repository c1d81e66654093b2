(** The statements of ExtFieldProps.v, assembled from ExtFieldProof.v and QuarticProof.v. *)
From Coq Require Import ZArith List Bool Arith Lia Znumtheory Ring Field Field_theory.
From Coq Require Import ZifyNat.
From Verif Require Import Field Zp ExtFieldModel TowerModel ExtFieldSpec ExtFieldProof QuarticProof FrobProof.
Import ListNotations.
Open Scope fld_scope.

Lemma list2_eq {A} (a b a' b' : A) : a = a' -> b = b' -> [a; b] = [a'; b'].
Proof. intros -> ->. reflexivity. Qed.
Lemma list3_eq {A} (a b c a' b' c' : A) : a = a' -> b = b' -> c = c' -> [a; b; c] = [a'; b'; c'].
Proof. intros -> -> ->. reflexivity. Qed.
Lemma list4_eq {A} (a b c d a' b' c' d' : A) : a = a' -> b = b' -> c = c' -> d = d' -> [a; b; c; d] = [a'; b'; c'; d'].
Proof. intros -> -> -> ->. reflexivity. Qed.

Section Quad.
  Variable K : fld.
  Add Field Kfe1 : (fld_theory K).
  Variables (q : K) (nr : K -> K) (pb m1 : bool).
  Hypothesis Hnr : forall x, nr x = q * x.

  Lemma mod_mul_2 (x y : quad K) : mod_mul 2 q (quad_to_base x) (quad_to_base y) = quad_to_base (qm K q x y).
  Proof.
    destruct x as [x0 x1], y as [y0 y1]. unfold mod_mul, mod_mul_coeff, quad_to_base, qm.
    cbn [seq map fsum Nat.eqb Nat.add nth q0 q1 fsum fold_right]. apply list2_eq; ring.
  Qed.
  Lemma quad_to_base_inj (x y : quad K) : quad_to_base x = quad_to_base y -> x = y.
  Proof. destruct x, y. unfold quad_to_base. cbn. intros H. injection H as -> ->. reflexivity. Qed.
  Lemma quad_linear (x y : quad K) (e : K) :
    quad_to_base (quad_add x y) = [q0 x + q0 y; q1 x + q1 y] /\
    quad_to_base (quad_sub x y) = [q0 x - q0 y; q1 x - q1 y] /\
    quad_to_base (quad_negate x) = [- q0 x; - q1 x] /\
    quad_to_base (quad_double x) = [q0 x + q0 x; q1 x + q1 x] /\
    quad_to_base (quad_mul_base x e) = [q0 x * e; q1 x * e] /\
    quad_to_base (quad_mul_base x e) = mod_mul 2 q (quad_to_base x) [e; 0].
  Proof.
    repeat match goal with |- _ /\ _ => split end; try reflexivity.
    rewrite (mod_mul_2 x (Quad e 0)) at 1. unfold quad_to_base, qm, quad_mul_base. cbn [q0 q1]. apply list2_eq; ring.
  Qed.
  Lemma quad_mul_correct (x y : quad K) :
    quad_to_base (quad_mul nr pb x y) = mod_mul 2 q (quad_to_base x) (quad_to_base y) /\
    quad_mul_in_place nr pb x (Other y) = quad_mul nr pb x y.
  Proof.
    rewrite mod_mul_2, (quad_mul_eq K q nr pb Hnr), (quad_mul_in_place_other K q nr pb Hnr). split; reflexivity.
  Qed.
  Lemma quad_square_correct (x : quad K) : (m1 = true -> q = - f1) ->
    quad_to_base (quad_square nr m1 x) = mod_mul 2 q (quad_to_base x) (quad_to_base x) /\
    quad_square_in_place nr m1 x = quad_square nr m1 x.
  Proof.
    intros Hm. rewrite mod_mul_2. unfold quad_square, quad_square_in_place. rewrite !(quad_do_square_eq K q nr m1 Hnr Hm).
    split; reflexivity.
  Qed.
  Lemma quad_norm_correct (x : quad K) :
    mod_mul 2 q (quad_to_base x) (quad_to_base (quad_conjugate x)) = [quad_norm nr x; 0].
  Proof. rewrite mod_mul_2, (quad_conjugate_norm K q nr Hnr). reflexivity. Qed.
  Lemma quad_zero_one : quad_to_base (quad_zero : quad K) = mod_zero 2 /\ quad_to_base (quad_one : quad K) = mod_one 2.
  Proof. split; reflexivity. Qed.
  Lemma quad_inverse_correct (x : quad K) : non_square q ->
    quad_inverse_in_place nr x = quad_inverse nr x /\
    match quad_inverse nr x with
    | None => quad_to_base x = mod_zero 2
    | Some y => quad_to_base x <> mod_zero 2 /\ mod_mul 2 q (quad_to_base x) (quad_to_base y) = mod_one 2
    end.
  Proof.
    intros Hq. destruct (quad_is_zero x) eqn:Z.
    - apply quad_is_zero_iff in Z. subst x. unfold quad_inverse, quad_inverse_in_place.
      rewrite !(quad_do_inverse_none K) by reflexivity. split; reflexivity.
    - assert (NZ : x <> quad_zero) by (intros E; apply quad_is_zero_iff in E; congruence).
      pose proof (norm_nonzero K q x Hq NZ) as N.
      unfold quad_inverse, quad_inverse_in_place.
      rewrite (quad_do_inverse_eq K q nr Hnr Out x) by exact N.
      rewrite (quad_do_inverse_eq K q nr Hnr (Other x) quad_zero) by exact N. cbn [deref].
      split; [reflexivity|]. split.
      + intros E. apply NZ. apply (quad_to_base_inj x quad_zero). exact E.
      + rewrite mod_mul_2, (qinv_correct K q) by exact N. reflexivity.
  Qed.
End Quad.

Section Cub.
  Variable K : fld.
  Add Field Kfe2 : (fld_theory K).
  Variables (q : K) (nr : K -> K).
  Hypothesis Hnr : forall x, nr x = q * x.
  Lemma mod_mul_3 (x y : cubic K) : mod_mul 3 q (cubic_to_base x) (cubic_to_base y) = cubic_to_base (cm K q x y).
  Proof.
    destruct x as [x0 x1 x2], y as [y0 y1 y2]. unfold mod_mul, mod_mul_coeff, cubic_to_base, cm.
    cbn [seq map fsum Nat.eqb Nat.add nth k0 k1 k2 fsum fold_right]. apply list3_eq; ring.
  Qed.
  Lemma cubic_to_base_inj (x y : cubic K) : cubic_to_base x = cubic_to_base y -> x = y.
  Proof. destruct x, y. unfold cubic_to_base. cbn. intros H. injection H as -> -> ->. reflexivity. Qed.
  Lemma cubic_linear (x y : cubic K) (e : K) :
    cubic_to_base (cubic_add x y) = [k0 x + k0 y; k1 x + k1 y; k2 x + k2 y] /\
    cubic_to_base (cubic_sub x y) = [k0 x - k0 y; k1 x - k1 y; k2 x - k2 y] /\
    cubic_to_base (cubic_negate x) = [- k0 x; - k1 x; - k2 x] /\
    cubic_to_base (cubic_double x) = [k0 x + k0 x; k1 x + k1 x; k2 x + k2 x] /\
    cubic_to_base (cubic_mul_base x e) = mod_mul 3 q (cubic_to_base x) [e; 0; 0].
  Proof.
    repeat match goal with |- _ /\ _ => split end; try reflexivity.
    rewrite (mod_mul_3 x (Cubic e 0 0)) at 1. unfold cubic_to_base, cm, cubic_mul_base. cbn [k0 k1 k2]. apply list3_eq; ring.
  Qed.
  Lemma cubic_mul_correct (x y : cubic K) :
    cubic_to_base (cubic_mul nr x y) = mod_mul 3 q (cubic_to_base x) (cubic_to_base y) /\
    cubic_mul_in_place nr x (Other y) = cubic_mul nr x y.
  Proof.
    unfold cubic_mul, cubic_mul_in_place. rewrite mod_mul_3, !(cubic_do_mul_eq K q nr Hnr). split; reflexivity.
  Qed.
  Lemma cubic_square_correct (x : cubic K) :
    cubic_to_base (cubic_square nr x) = mod_mul 3 q (cubic_to_base x) (cubic_to_base x) /\
    cubic_square_in_place nr x = cubic_square nr x.
  Proof.
    unfold cubic_square, cubic_square_in_place. rewrite mod_mul_3, !(cubic_do_square_eq K q nr Hnr). split; reflexivity.
  Qed.
  Lemma cubic_inverse_correct (x : cubic K) : non_cube q ->
    cubic_inverse_in_place nr x = cubic_inverse nr x /\
    match cubic_inverse nr x with
    | None => cubic_to_base x = mod_zero 3
    | Some y => cubic_to_base x <> mod_zero 3 /\ mod_mul 3 q (cubic_to_base x) (cubic_to_base y) = mod_one 3
    end.
  Proof.
    intros Hq. destruct (cubic_is_zero x) eqn:Z.
    - apply cubic_is_zero_iff in Z. subst x. unfold cubic_inverse, cubic_inverse_in_place.
      rewrite !(cubic_do_inverse_none K) by reflexivity. split; reflexivity.
    - assert (NZ : x <> cubic_zero) by (intros E; apply cubic_is_zero_iff in E; congruence).
      pose proof (cubic_norm_nonzero K q x Hq NZ) as N.
      unfold cubic_inverse, cubic_inverse_in_place.
      rewrite (cubic_do_inverse_eq K q nr Hnr Out x) by exact N.
      rewrite (cubic_do_inverse_eq K q nr Hnr (Other x) cubic_zero) by exact N. cbn [deref].
      split; [reflexivity|]. split.
      + intros E. apply NZ. apply (cubic_to_base_inj x cubic_zero). exact E.
      + rewrite mod_mul_3, (cinv_correct K q) by exact N. reflexivity.
  Qed.
End Cub.

Section Quart.
  Variable K : fld.
  Add Field Kfe3 : (fld_theory K).
  Variables (q : K) (nr : K -> K).
  Hypothesis Hnr : forall x, nr x = q * x.
  Lemma mod_mul_4 (x y : quartic K) : mod_mul 4 q (quartic_to_base x) (quartic_to_base y) = quartic_to_base (rm K q x y).
  Proof.
    destruct x as [x0 x1 x2 x3], y as [y0 y1 y2 y3]. unfold mod_mul, mod_mul_coeff, quartic_to_base, rm.
    cbn [seq map fsum Nat.eqb Nat.add nth r0 r1 r2 r3 fsum fold_right]. apply list4_eq; ring.
  Qed.
  Lemma quartic_to_base_inj (x y : quartic K) : quartic_to_base x = quartic_to_base y -> x = y.
  Proof. destruct x, y. unfold quartic_to_base. cbn. intros H. injection H as -> -> -> ->. reflexivity. Qed.
  Hypotheses (H2 : (fnat 2 : K) <> 0) (H3 : (fnat 3 : K) <> 0) (H5 : (fnat 5 : K) <> 0).
  Lemma quartic_mul_correct (x y : quartic K) :
    quartic_to_base (quartic_mul nr x y) = mod_mul 4 q (quartic_to_base x) (quartic_to_base y) /\
    quartic_mul_in_place nr x (Other y) = quartic_mul nr x y /\
    quartic_to_base (quartic_square nr x) = mod_mul 4 q (quartic_to_base x) (quartic_to_base x) /\
    quartic_square_in_place nr x = quartic_square nr x.
  Proof.
    unfold quartic_mul, quartic_mul_in_place, quartic_square, quartic_square_in_place.
    rewrite !mod_mul_4, !(quartic_do_mul_eq K q nr Hnr H2 H3 H5), !(quartic_do_square_eq K q nr Hnr H2 H3 H5).
    repeat split; reflexivity.
  Qed.
  Section Inv.
    Variables (cf : nat -> nat -> K) (w : K).
    Hypothesis Hw : w * w = - f1.
    Hypothesis Hcf : forall k e, (k <= 3)%nat -> (e <= 3)%nat -> cf k e = w ^ (k * e).
    Hypothesis Hq : non_square q.
    Lemma quartic_inverse_correct (x : quartic K) :
      quartic_inverse_in_place nr cf x = quartic_inverse nr cf x /\
      match quartic_inverse nr cf x with
      | InvUndefined => False
      | InvFails => quartic_to_base x = mod_zero 4
      | InvReturns y => quartic_to_base x <> mod_zero 4 /\ mod_mul 4 q (quartic_to_base x) (quartic_to_base y) = mod_one 4
      end.
    Proof.
      destruct (quartic_is_zero x) eqn:Z.
      - apply quartic_is_zero_iff in Z. subst x. unfold quartic_inverse, quartic_inverse_in_place.
        rewrite !(quartic_do_inverse_none K) by reflexivity. split; reflexivity.
      - assert (NZ : x <> quartic_zero) by (intros E; apply quartic_is_zero_iff in E; congruence).
        assert (N : rnorm K q x <> 0) by (eapply rnorm_nonzero; eauto).
        unfold quartic_inverse, quartic_inverse_in_place.
        erewrite (quartic_do_inverse_eq K q nr) with (r := Out) (x := x); eauto.
        erewrite (quartic_do_inverse_eq K q nr) with (r := Other x) (x := x); eauto.
        split; [reflexivity|]. split.
        + intros E. apply NZ. apply (quartic_to_base_inj x quartic_zero). exact E.
        + rewrite mod_mul_4. erewrite rinv_spec; eauto.
    Qed.
  End Inv.
End Quart.

(** Powers that witness non-squares and non-cubes. *)
Section NonRes.
  Variable K : fld.
  Add Field Kfe4 : (fld_theory K).
  Variables (p d : nat).
  Hypothesis Hp : prime (Z.of_nat p).
  Hypothesis Hfin : forall x : K, x ^ (p ^ d) = x.
  Lemma non_power_gen (q : K) n m : (p ^ d - 1 = n * m)%nat -> q <> 0 -> q ^ m <> 1 -> forall x : K, x ^ n <> q.
  Proof.
    intros E H0 H1 x Ex. apply H1. rewrite <- Ex, <- fpow_mul, <- E. apply (fermat_k K p Hp); [exact Hfin|].
    intros ->. apply H0. rewrite <- Ex. apply (fpow_0 K). destruct n; [|lia]. intros.
    exfalso. apply H1. rewrite <- Ex. apply fpow_one.
  Qed.
  Lemma non_square_gen (q : K) m : (p ^ d - 1 = 2 * m)%nat -> q <> 0 -> q ^ m <> 1 -> non_square q.
  Proof. intros E H0 H1 x Ex. apply (non_power_gen q 2 m E H0 H1 x). rewrite <- Ex. cbn [fpow]. ring. Qed.
  Lemma non_cube_gen (q : K) m : (p ^ d - 1 = 3 * m)%nat -> q <> 0 -> q ^ m <> 1 -> non_cube q.
  Proof. intros E H0 H1 x Ex. apply (non_power_gen q 3 m E H0 H1 x). rewrite <- Ex. cbn [fpow]. ring. Qed.
End NonRes.

(** The quartic extension of a prime field p = 4m + 1 with the Frobenius table of fp4.h. *)
Section QuarticConfig.
  Variable p m : nat.
  Hypothesis Hp : prime (Z.of_nat p).
  Let F : fld := Zp (Z.of_nat p) Hp.
  Add Field Kfe5 : (fld_theory F).
  Hypothesis Hpm : (p = 4 * m + 1)%nat.
  Hypothesis Hp5 : (5 < p)%nat.
  Variable q : F.
  Hypothesis Hqr : q ^ (2 * m) = - f1.
  Variable nr : F -> F.
  Hypothesis Hnr : forall x, nr x = q * x.

  Lemma small_not_div n : (0 < n < p)%nat -> (fnat n : F) <> 0.
  Proof. intros H. apply fnat_neq0. intros D. apply Z.divide_pos_le in D; lia. Qed.
  Lemma q_nz : q <> 0.
  Proof.
    intros E. rewrite E, (fpow_0 F) in Hqr by lia. apply (f1_neq_0 F). transitivity (- (- (f1 : F))); [ring|]. rewrite <- Hqr. ring.
  Qed.
  Lemma minus_one_not_one : - (f1 : F) <> 1.
  Proof.
    intros E. apply (small_not_div 2); [lia|]. cbn [fnat].
    transitivity ((1 : F) + (- (f1 : F))); [rewrite E; ring|ring].
  Qed.
  Lemma q_non_square : non_square q.
  Proof.
    apply (non_square_gen F p 1 Hp (prime_frob1 p Hp) q (2 * m)).
    - rewrite Nat.pow_1_r. lia.
    - exact q_nz.
    - rewrite Hqr. exact minus_one_not_one.
  Qed.
  Let w : F := q ^ m.
  Lemma w_square : w * w = - f1.
  Proof. unfold w. rewrite <- fpow_add, <- Hqr. f_equal. lia. Qed.
  Lemma w_p : w ^ p = w. Proof. apply prime_frob. Qed.
  Lemma quartic_cf k e : (k <= 3)%nat -> (e <= 3)%nat -> frob_coeff p 4 q k e = w ^ (k * e).
  Proof.
    intros Hk He. assert (G : forall s, (p ^ e - 1 = 4 * (m * s))%nat -> w ^ s = w ^ e -> (0 < e)%nat ->
      frob_coeff p 4 q k e = w ^ (k * e)).
    { intros s E Ew H0. unfold frob_coeff. destruct e as [|e']; [lia|]. rewrite E.
      replace (4 * (m * s))%nat with (m * s * 4)%nat by lia. rewrite Nat.div_mul by lia.
      rewrite Nat.mul_comm, fpow_mul, fpow_mul. fold w. rewrite Ew, <- fpow_mul. f_equal. lia. }
    pose proof w_p as Ew.
    destruct e as [|[|[|[|e]]]]; [| | | |lia].
    - unfold frob_coeff. rewrite Nat.mul_0_r. reflexivity.
    - apply (G 1%nat); [rewrite Nat.pow_1_r; lia|reflexivity|lia].
    - apply (G (1 + p)%nat); [cbn [Nat.pow]; nia|rewrite fpow_add, Ew; cbn [fpow]; ring|lia].
    - apply (G (1 + p + p * p)%nat); [cbn [Nat.pow]; nia| |lia].
      rewrite !fpow_add, fpow_mul, !Ew. cbn [fpow]. ring.
  Qed.
  Lemma prime_quartic_mul (x y : quartic F) :
    quartic_to_base (quartic_mul nr x y) = mod_mul 4 q (quartic_to_base x) (quartic_to_base y) /\
    quartic_mul_in_place nr x (Other y) = quartic_mul nr x y /\
    quartic_to_base (quartic_square nr x) = mod_mul 4 q (quartic_to_base x) (quartic_to_base x) /\
    quartic_square_in_place nr x = quartic_square nr x.
  Proof. apply quartic_mul_correct; [exact Hnr|apply small_not_div; lia..]. Qed.
  Lemma prime_quartic_inverse (x : quartic F) :
    quartic_inverse_in_place nr (frob_coeff p 4 q) x = quartic_inverse nr (frob_coeff p 4 q) x /\
    match quartic_inverse nr (frob_coeff p 4 q) x with
    | InvUndefined => False
    | InvFails => quartic_to_base x = mod_zero 4
    | InvReturns y => quartic_to_base x <> mod_zero 4 /\ mod_mul 4 q (quartic_to_base x) (quartic_to_base y) = mod_one 4
    end.
  Proof.
    apply (quartic_inverse_correct F q nr Hnr) with (w := w); try (apply small_not_div; lia).
    - exact w_square.
    - exact quartic_cf.
    - exact q_non_square.
  Qed.
  (** the norm, as the product of the four conjugates *)
  Lemma prime_quartic_norm (x : quartic F) :
    exists n, quartic_norm nr (frob_coeff p 4 q) x = Some n /\
    quartic_to_base (quartic_mul nr x (quartic_mul nr (quartic_frobenius (frob_coeff p 4 q) x 1)
      (quartic_mul nr (quartic_frobenius (frob_coeff p 4 q) x 2) (quartic_frobenius (frob_coeff p 4 q) x 3)))) = [n; 0; 0; 0].
  Proof.
    exists (rnorm F q x). split.
    - apply (quartic_norm_eq F q nr Hnr) with (w := w); try (apply small_not_div; lia); [exact w_square|exact quartic_cf].
    - rewrite (frob1 F q nr Hnr _ w w_square quartic_cf), (frob2 F q nr Hnr _ w w_square quartic_cf), (frob3 F q nr Hnr _ w w_square quartic_cf).
      unfold quartic_mul. rewrite !(quartic_do_mul_eq F q nr Hnr) by (apply small_not_div; lia). cbn [deref].
      pose proof (rcof_spec F q w w_square x) as E. unfold rcof in E. rewrite E. reflexivity.
  Qed.
End QuarticConfig.

(** Aliasing. *)
Section Alias.
  Variable K : fld.
  Add Field Kfe6 : (fld_theory K).
  Variables (q : K) (nr : K -> K).
  Hypothesis Hnr : forall x, nr x = q * x.
  Lemma alias_quad_prime (x : quad K) : quad_mul_in_place nr true x Out = quad_mul nr true x x.
  Proof. rewrite (quad_mul_in_place_self K q nr true Hnr) by reflexivity. rewrite (quad_mul_eq K q nr true Hnr). reflexivity. Qed.
  Lemma alias_cubic (x : cubic K) : cubic_mul_in_place nr x Out = cubic_mul nr x x.
  Proof. unfold cubic_mul_in_place, cubic_mul. rewrite !(cubic_do_mul_eq K q nr Hnr). reflexivity. Qed.
  Lemma alias_quartic (x : quartic K) : quartic_mul_in_place nr x Out = quartic_mul nr x x.
  Proof. reflexivity. Qed.
  Lemma alias_add (x : quad K) (y : cubic K) :
    quad_add_in_place x Out = quad_add x x /\ quad_sub_in_place x Out = quad_sub x x /\
    cubic_add_in_place y Out = cubic_add y y /\ cubic_sub_in_place y Out = cubic_sub y y.
  Proof. repeat split. Qed.
  Lemma alias_quad_tower (x : quad K) :
    quad_mul_in_place nr false x Out = quad_mul nr false x x <-> (q0 x = 0 \/ q0 x + q1 x = 0).
  Proof.
    rewrite (quad_mul_in_place_self_tower K q nr false Hnr), (quad_mul_eq K q nr false Hnr) by reflexivity.
    assert (E : forall a b : K, (a + b) * (a + (a + b)) - a * a - b * b = (a * b + b * a) + a * (a + b)) by (intros; ring).
    split.
    - intros H. apply (f_equal q1) in H. cbn [q1 qm] in H. rewrite E in H. apply (fmul_integral K).
      transitivity ((q0 x * q1 x + q1 x * q0 x + q0 x * (q0 x + q1 x)) - (q0 x * q1 x + q1 x * q0 x)); [ring|]. rewrite H. ring.
    - intros H. apply quad_ext; [reflexivity|]. cbn [q1 qm]. rewrite E.
      assert (Z : q0 x * (q0 x + q1 x) = 0) by (destruct H as [H|H]; rewrite H; ring). rewrite Z. ring.
  Qed.
End Alias.
