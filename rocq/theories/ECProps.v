(** Property theorems C46-C49 and C84-C87: points of y^2 = x^3 + a x + b over any field whose characteristic is not 2.
    [plus], [minus] and [on_curve] (ECSpec.v) are the affine chord-and-tangent law, [None] being infinity; [aff], [jac], [proj] and [xyzz_pt]
    read the affine point off a representation.  [a0] is the configuration's claim that a is zero; [low] selects between two doublings. *)
From Coq Require Import ZArith List Bool Arith Lia.
From Verif Require Import Field Zp ECModel ECSpec ECProof ECProof2 ECExtra ECGroup.
Import ListNotations.
Open Scope fld_scope.
Local Ltac ands := cbv zeta; repeat match goal with |- _ /\ _ => split end.

(** The law used by the specification is closed and commutative, has the identity None and the inverses [minus]. *)
Theorem C46_specification_sanity : forall (K : fld) (a b : K), (1 + 1 : K) <> 0 -> forall P Q : point K,
  on_curve a b P -> on_curve a b Q ->
  on_curve a b (plus a P Q) /\ on_curve a b (minus P) /\ plus a P Q = plus a Q P /\ plus a P None = P /\ plus a P (minus P) = None.
Proof. exact (fun K a b H2 P Q HP HQ => conj (plus_on_curve K a b H2 P Q HP HQ) (conj (minus_on_curve K a b P HP)
         (conj (plus_comm K a b P Q HP HQ) (conj (plus_none_r K a P) (plus_minus K a P))))). Qed.
Print Assumptions C46_specification_sanity.

(** On a non-singular curve it is associative, so the points form a commutative group. *)
Theorem C46_group_law : forall (K : fld) (a b : K), (1 + 1 : K) <> 0 -> fnat 4 * (a * a * a) + fnat 27 * (b * b) <> 0 ->
  forall P Q R : point K, on_curve a b P -> on_curve a b Q -> on_curve a b R ->
  plus a (plus a P Q) R = plus a P (plus a Q R).
Proof. exact (fun K a b two disc => plus_assoc K a b two (smooth_of_discriminant K a b disc)). Qed.
Print Assumptions C46_group_law.

(** ** C46: Jacobian points, on curves with a = 0, and on any curve when the operands are different points. *)
Theorem C46_double : forall (K : fld) (a : K) (a0 low : bool), (1 + 1 : K) <> 0 -> (a0 = true -> a = 0) -> forall p : jacobian K, a0 = true ->
  jac (j_double a a0 low p) = plus a (jac p) (jac p) /\ jac (j_double_in_place a a0 low p) = plus a (jac p) (jac p).
Proof. exact c46_double. Qed.
Print Assumptions C46_double.

Theorem C46_add : forall (K : fld) (a b : K) (a0 low : bool), (1 + 1 : K) <> 0 -> (a0 = true -> a = 0) -> forall p q : jacobian K,
  a0 = true \/ jac p <> jac q -> on_curve a b (jac p) -> on_curve a b (jac q) ->
  jac (j_add a a0 low p q) = plus a (jac p) (jac q) /\ j_add_in_place a a0 low p q = j_add a a0 low p q /\ on_curve a b (jac (j_add a a0 low p q)).
Proof. exact c46_add. Qed.
Print Assumptions C46_add.

Theorem C46_add_affine : forall (K : fld) (a b : K) (a0 low : bool), (1 + 1 : K) <> 0 -> (a0 = true -> a = 0) -> forall (p : jacobian K) (q : affine K),
  a0 = true \/ jac p <> aff q -> on_curve a b (jac p) -> on_curve a b (aff q) ->
  jac (j_madd a a0 low p q) = plus a (jac p) (aff q) /\ j_madd_in_place a a0 low p q = j_madd a a0 low p q /\ on_curve a b (jac (j_madd a a0 low p q)).
Proof. exact c46_madd. Qed.
Print Assumptions C46_add_affine.

Theorem C46_affine_operands : forall (K : fld) (a b : K) (a0 low : bool), (1 + 1 : K) <> 0 -> (a0 = true -> a = 0) ->
  forall (p q : affine K) (r : jacobian K),
  a0 = true \/ (aff p <> aff q /\ aff p <> jac r) -> on_curve a b (aff p) -> on_curve a b (aff q) -> on_curve a b (jac r) ->
  jac (a_add a a0 low p q) = plus a (aff p) (aff q) /\ jac (aj_add a a0 low p r) = plus a (aff p) (jac r).
Proof. exact c46_affine. Qed.
Print Assumptions C46_affine_operands.

Theorem C46_equality_negation_identity : forall (K : fld) (p q : jacobian K),
  (j_eqb p q = true <-> jac p = jac q) /\ jac (j_neg p) = minus (jac p) /\ (j_is_zero p = true <-> jac p = None) /\ jac (j_zero (K := K)) = None.
Proof. exact c46_other. Qed.
Print Assumptions C46_equality_negation_identity.

(** y^2 = x^3 + 5 over GF(7): (3, 2) + (6, 2) = (5, 5), 2 (3, 2) = (5, 2), and (3, 2) + (3, 5) is infinity; also with other representatives. *)
Definition e7 (n : Z) : F7 := mkz 7 (prime_check_sound 7 eq_refl) n.
Definition zpoint (P : point F7) : option (Z * Z) := option_map (fun xy => (zval 7 (fst xy), zval 7 (snd xy))) P.
Example C46_nonvacuous :
  let P := mkJ (e7 3) (e7 2) (e7 1) in
  let P' := mkJ (e7 5) (e7 2) (e7 2) in
  let Q := mkJ (e7 6) (e7 2) (e7 1) in
  j_on_curve (e7 0) (e7 5) true P = true /\ j_on_curve (e7 0) (e7 5) true Q = true /\
  zpoint (jac P') = Some (3, 2)%Z /\
  zpoint (jac (j_add (e7 0) true true P Q)) = Some (5, 5)%Z /\ zpoint (jac (j_double (e7 0) true false P)) = Some (5, 2)%Z /\
  zpoint (jac (j_add (e7 0) true true P P')) = Some (5, 2)%Z /\
  zpoint (jac (j_madd (e7 0) true true Q (mkA (e7 3) (e7 2)))) = Some (5, 5)%Z /\
  zpoint (jac (j_add (e7 0) true true P (j_neg P'))) = None /\
  (1 + 1 : F7) <> 0.
Proof. ands; try (vm_compute; reflexivity). intro H. apply (f_equal (zval 7)) in H. vm_compute in H. discriminate. Qed.

(** ** C84: on curves with a <> 0 the Jacobian doubling sets z to 2 (y + z) instead of 2 y z. *)
Theorem C84_double_partial : forall (K : fld) (a : K) (a0 low : bool), (1 + 1 : K) <> 0 -> (a0 = true -> a = 0) ->
  forall p : jacobian K, a0 = false -> jz p <> 0 -> jy p + jz p = jy p * jz p -> jac (j_double a a0 low p) = plus a (jac p) (jac p).
Proof. exact jac_double_any. Qed.
Print Assumptions C84_double_partial.

(** y^2 = x^3 + x + 1 over GF(7): doubling (0, 1) does not even give a point of the curve. *)
Theorem C84_double_refuted : exists (a b : F7) (p : jacobian F7), (1 + 1 : F7) <> 0 /\ a <> 0 /\ on_curve a b (jac p) /\
  jac (j_double a false true p) <> plus a (jac p) (jac p) /\ ~ on_curve a b (jac (j_double a false true p)).
Proof.
  exists (e7 1), (e7 1), (mkJ (e7 0) (e7 1) (e7 1)). ands.
  - intro H. apply (f_equal (zval 7)) in H. vm_compute in H. discriminate.
  - intro H. apply (f_equal (zval 7)) in H. vm_compute in H. discriminate.
  - apply (zp_eq 7). vm_compute. reflexivity.
  - intro H. apply (f_equal zpoint) in H. vm_compute in H. discriminate.
  - intro H. apply (f_equal (zval 7)) in H. vm_compute in H. discriminate.
Qed.
Print Assumptions C84_double_refuted.
Example C84_nonvacuous :
  let p := mkJ (e7 1) (e7 2) (e7 2) in
  zval 7 (jy p + jz p) = zval 7 (jy p * jz p) /\
  zpoint (jac (j_double (e7 1) false true p)) = zpoint (plus (e7 1) (jac p) (jac p)) /\ zpoint (jac p) = Some (2, 2)%Z.
Proof. ands; vm_compute; reflexivity. Qed.

(** ** C47: projective points, on every curve. *)
Theorem C47_double : forall (K : fld) (a : K) (a0 : bool), (1 + 1 : K) <> 0 -> (a0 = true -> a = 0) -> forall (p : projective K) (q : affine K),
  proj (p_double a a0 p) = plus a (proj p) (proj p) /\ proj (p_double_in_place a a0 p) = plus a (proj p) (proj p) /\
  proj (a_double_p a a0 q) = plus a (aff q) (aff q).
Proof. exact c47_double. Qed.
Print Assumptions C47_double.

Theorem C47_add : forall (K : fld) (a b : K) (a0 : bool), (1 + 1 : K) <> 0 -> (a0 = true -> a = 0) -> forall p q : projective K,
  on_curve a b (proj p) -> on_curve a b (proj q) ->
  proj (p_add a a0 p q) = plus a (proj p) (proj q) /\ p_add_in_place a a0 p q = p_add a a0 p q /\ on_curve a b (proj (p_add a a0 p q)).
Proof. exact c47_add. Qed.
Print Assumptions C47_add.

Theorem C47_add_affine : forall (K : fld) (a b : K) (a0 : bool), (1 + 1 : K) <> 0 -> (a0 = true -> a = 0) -> forall (p : projective K) (q : affine K),
  on_curve a b (proj p) -> on_curve a b (aff q) ->
  proj (p_madd a a0 p q) = plus a (proj p) (aff q) /\ p_madd_in_place a a0 p q = p_madd a a0 p q /\ on_curve a b (proj (p_madd a a0 p q)).
Proof. exact c47_madd. Qed.
Print Assumptions C47_add_affine.

Theorem C47_equality_negation_identity : forall (K : fld) (p q : projective K),
  (p_eqb p q = true <-> proj p = proj q) /\ proj (p_neg p) = minus (proj p) /\ (p_is_zero p = true <-> proj p = None) /\ proj (p_zero (K := K)) = None.
Proof. exact c47_other. Qed.
Print Assumptions C47_equality_negation_identity.

(** y^2 = x^3 + x + 1 over GF(7): (2, 2) + (0, 1) = (0, 6), 2 (2, 2) = (0, 1). *)
Example C47_nonvacuous :
  let P := mkP (e7 2) (e7 2) (e7 1) in
  let P' := mkP (e7 6) (e7 6) (e7 3) in
  let Q := mkP (e7 0) (e7 1) (e7 1) in
  p_on_curve (e7 1) (e7 1) false P = true /\ p_on_curve (e7 1) (e7 1) false P' = true /\ p_on_curve (e7 1) (e7 1) false Q = true /\
  zpoint (proj (p_double (e7 1) false P)) = Some (0, 1)%Z /\ zpoint (proj (p_add (e7 1) false P' P)) = Some (0, 1)%Z /\
  zpoint (proj (p_add (e7 1) false P' Q)) = Some (0, 6)%Z /\ zpoint (proj (p_madd (e7 1) false P' (mkA (e7 0) (e7 1)))) = Some (0, 6)%Z /\
  zpoint (proj (p_add (e7 1) false P' (p_neg P))) = None /\
  zpoint (plus (e7 1) (proj P) (proj Q)) = Some (0, 6)%Z.
Proof. ands; vm_compute; reflexivity. Qed.

(** ** C48: XYZZ points, on every curve; [xyzz_ok] (zz^3 = zzz^2) holds of every point the library makes and is kept by every operation. *)
Theorem C48_double : forall (K : fld) (a : K) (a0 : bool), (1 + 1 : K) <> 0 -> (a0 = true -> a = 0) -> forall (s : xyzz K) (q : affine K), xyzz_ok s ->
  xyzz_pt (x_double a a0 s) = plus a (xyzz_pt s) (xyzz_pt s) /\ xyzz_pt (x_double_in_place a a0 s) = plus a (xyzz_pt s) (xyzz_pt s) /\
  xyzz_ok (x_double a a0 s) /\ xyzz_ok (x_double_in_place a a0 s) /\
  xyzz_pt (a_double_x a a0 q) = plus a (aff q) (aff q) /\ xyzz_ok (a_double_x a a0 q).
Proof. exact c48_double. Qed.
Print Assumptions C48_double.

Theorem C48_add : forall (K : fld) (a b : K) (a0 : bool), (1 + 1 : K) <> 0 -> (a0 = true -> a = 0) -> forall s t : xyzz K,
  xyzz_ok s -> xyzz_ok t -> on_curve a b (xyzz_pt s) -> on_curve a b (xyzz_pt t) ->
  xyzz_pt (x_add a a0 s t) = plus a (xyzz_pt s) (xyzz_pt t) /\ x_add_in_place a a0 s t = x_add a a0 s t /\
  xyzz_ok (x_add a a0 s t) /\ on_curve a b (xyzz_pt (x_add a a0 s t)).
Proof. exact c48_add. Qed.
Print Assumptions C48_add.

Theorem C48_add_affine : forall (K : fld) (a b : K) (a0 : bool), (1 + 1 : K) <> 0 -> (a0 = true -> a = 0) -> forall (s : xyzz K) (q : affine K),
  xyzz_ok s -> on_curve a b (xyzz_pt s) -> on_curve a b (aff q) ->
  xyzz_pt (x_madd a a0 s q) = plus a (xyzz_pt s) (aff q) /\ x_madd_in_place a a0 s q = x_madd a a0 s q /\
  xyzz_ok (x_madd a a0 s q) /\ on_curve a b (xyzz_pt (x_madd a a0 s q)).
Proof. exact c48_madd. Qed.
Print Assumptions C48_add_affine.

Theorem C48_equality_negation_identity : forall (K : fld) (s t : xyzz K), xyzz_ok s -> xyzz_ok t ->
  (x_eqb s t = true <-> xyzz_pt s = xyzz_pt t) /\ xyzz_pt (x_neg s) = minus (xyzz_pt s) /\ xyzz_ok (x_neg s) /\
  (x_is_zero s = true <-> xyzz_pt s = None) /\ xyzz_pt (x_zero (K := K)) = None /\ xyzz_ok (x_zero (K := K)).
Proof. exact c48_other. Qed.
Print Assumptions C48_equality_negation_identity.

Example C48_nonvacuous :
  let P := mkX (e7 2) (e7 2) (e7 1) (e7 1) in
  let P' := mkX (e7 4) (e7 5) (e7 2) (e7 6) in
  let Q := mkX (e7 0) (e7 1) (e7 1) (e7 1) in
  x_on_curve (e7 1) (e7 1) false P = true /\ x_on_curve (e7 1) (e7 1) false P' = true /\ x_on_curve (e7 1) (e7 1) false Q = true /\
  zval 7 (xzz P' * xzz P' * xzz P') = zval 7 (xzzz P' * xzzz P') /\
  zpoint (xyzz_pt P') = Some (2, 2)%Z /\
  zpoint (xyzz_pt (x_double (e7 1) false P)) = Some (0, 1)%Z /\ zpoint (xyzz_pt (x_add (e7 1) false P' P)) = Some (0, 1)%Z /\
  zpoint (xyzz_pt (x_add (e7 1) false P' Q)) = Some (0, 6)%Z /\ zpoint (xyzz_pt (x_madd (e7 1) false P' (mkA (e7 0) (e7 1)))) = Some (0, 6)%Z /\
  zpoint (xyzz_pt (a_double_x (e7 1) false (mkA (e7 2) (e7 2)))) = Some (0, 1)%Z.
Proof. ands; vm_compute; reflexivity. Qed.

(** ** C49: conversions from and between affine, Jacobian and projective points, to XYZZ, and batch normalisation. *)
Theorem C49_from_affine : forall (K : fld) (p : affine K),
  jac (a_to_j p) = aff p /\ proj (a_to_p p) = aff p /\ xyzz_pt (a_to_x p) = aff p /\ xyzz_ok (a_to_x p).
Proof. exact c49_from_affine. Qed.
Print Assumptions C49_from_affine.

Theorem C49_between : forall (K : fld) (p : jacobian K) (q : projective K),
  proj (j_to_p p) = jac p /\ xyzz_pt (j_to_x p) = jac p /\ xyzz_ok (j_to_x p) /\
  jac (p_to_j q) = proj q /\ xyzz_pt (p_to_x q) = proj q /\ xyzz_ok (p_to_x q).
Proof. exact c49_between. Qed.
Print Assumptions C49_between.

(** (0, 0) encodes infinity, so it must not be a point of the curve: b <> 0 (C87). *)
Theorem C49_to_affine : forall (K : fld) (a b : K) (p : jacobian K) (q : projective K), b <> 0 -> on_curve a b (jac p) -> on_curve a b (proj q) ->
  aff (j_to_a p) = jac p /\ aff (p_to_a q) = proj q.
Proof. exact c49_to_affine. Qed.
Print Assumptions C49_to_affine.

(** Batch normalisation, serial or on fewer than 128 threads, is ToAffine of each point. *)
Theorem C49_batch_normalize : forall (K : fld) (ps : list (jacobian K)) (qs : list (projective K)) (openmp : option Z),
  threads_ok openmp (length ps) -> threads_ok openmp (length qs) ->
  normalize openmp (@jz K) j_normalize1 ps (length ps) = Some (map j_to_a ps) /\
  normalize openmp (@pz K) p_normalize1 qs (length qs) = Some (map p_to_a qs).
Proof. exact c49_normalize. Qed.
Print Assumptions C49_batch_normalize.

Theorem C49_batch_sizes : forall (K : fld) (ps : list (jacobian K)) (qs : list (projective K)) (openmp : option Z) (n : nat),
  length ps <> n -> length qs <> n ->
  normalize openmp (@jz K) j_normalize1 ps n = None /\ normalize openmp (@pz K) p_normalize1 qs n = None.
Proof. exact c49_sizes. Qed.
Print Assumptions C49_batch_sizes.

Example C49_nonvacuous :
  let pts := [mkJ (e7 5) (e7 2) (e7 2); mkJ (e7 1) (e7 1) (e7 0); mkJ (e7 6) (e7 2) (e7 1); mkJ (e7 3) (e7 5) (e7 6)] in
  threads_ok (Some 2%Z) (length pts) /\
  map (fun p => zpoint (jac p)) pts = [Some (3, 2)%Z; None; Some (6, 2)%Z; Some (3, 2)%Z] /\
  option_map (map (fun p => zpoint (aff p))) (normalize (Some 2%Z) (@jz F7) j_normalize1 pts 4) = Some [Some (3, 2)%Z; None; Some (6, 2)%Z; Some (3, 2)%Z] /\
  map (fun p => zpoint (proj (j_to_p p))) pts = [Some (3, 2)%Z; None; Some (6, 2)%Z; Some (3, 2)%Z].
Proof. ands; try (vm_compute; reflexivity). cbn; lia. Qed.

(** ** C85: the conversions from XYZZ take zz = 1 for "z is 1" and forget that zzz may be -1. *)
Theorem C85_from_xyzz_partial : forall (K : fld) (a b : K) (s : xyzz K), xyzz_ok s -> (xzz s = 1 -> xzzz s = 1) ->
  jac (x_to_j s) = xyzz_pt s /\ proj (x_to_p s) = xyzz_pt s /\ (b <> 0 -> on_curve a b (xyzz_pt s) -> aff (x_to_a s) = xyzz_pt s).
Proof. exact c85_conversions. Qed.
Print Assumptions C85_from_xyzz_partial.

Theorem C85_batch_normalize : forall (K : fld) (ss : list (xyzz K)) (openmp : option Z), threads_ok openmp (length ss) -> Forall xyzz_ok ss ->
  normalize openmp (@xzzz K) x_normalize1 ss (length ss) = Some (map x_to_a ss).
Proof. exact c85_normalize. Qed.
Print Assumptions C85_batch_normalize.

(** In the remaining case the answer is the opposite point. *)
Theorem C85_from_xyzz_wrong_sign : forall (K : fld) (a b : K) (s : xyzz K), xyzz_ok s -> xzz s = 1 -> xzzz s <> 1 ->
  jac (x_to_j s) = minus (xyzz_pt s) /\ proj (x_to_p s) = minus (xyzz_pt s) /\ (b <> 0 -> on_curve a b (xyzz_pt s) -> aff (x_to_a s) = minus (xyzz_pt s)).
Proof. exact c85_shortcut. Qed.
Print Assumptions C85_from_xyzz_wrong_sign.

(** And ordinary arithmetic gets there: on y^2 = x^3 + 5 over GF(7), (6, 2) + (5, 2), computed in XYZZ from affine points. *)
Theorem C85_from_xyzz_refuted : exists p q : affine F7, let s := x_madd 0 true (a_to_x p) q in
  on_curve 0 (e7 5) (aff p) /\ on_curve 0 (e7 5) (aff q) /\ xyzz_ok s /\ aff (x_to_a s) <> plus 0 (aff p) (aff q) /\
  jac (x_to_j s) <> plus 0 (aff p) (aff q) /\ proj (x_to_p s) <> plus 0 (aff p) (aff q).
Proof.
  exists (mkA (e7 6) (e7 2)), (mkA (e7 5) (e7 2)). ands.
  - apply (zp_eq 7). vm_compute. reflexivity.
  - apply (zp_eq 7). vm_compute. reflexivity.
  - apply (zp_eq 7). vm_compute. reflexivity.
  - intro H. apply (f_equal zpoint) in H. vm_compute in H. discriminate.
  - intro H. apply (f_equal zpoint) in H. vm_compute in H. discriminate.
  - intro H. apply (f_equal zpoint) in H. vm_compute in H. discriminate.
Qed.
Print Assumptions C85_from_xyzz_refuted.
Example C85_nonvacuous :
  let s := x_madd (e7 0) true (a_to_x (mkA (e7 3) (e7 2))) (mkA (e7 6) (e7 2)) in
  zval 7 (xzz s) <> 1%Z /\ zpoint (aff (x_to_a s)) = Some (5, 5)%Z /\ zpoint (jac (x_to_j s)) = Some (5, 5)%Z /\ zpoint (proj (x_to_p s)) = Some (5, 5)%Z.
Proof. ands; vm_compute; first [reflexivity|discriminate]. Qed.

(** ** C86: IsOnCurve accepts exactly the finite points of the curve (infinity is rejected), in every representation. *)
Theorem C86_is_on_curve : forall (K : fld) (a b : K) (a0 : bool), (a0 = true -> a = 0) ->
  forall (p : affine K) (q : projective K) (r : jacobian K) (s : xyzz K), xyzz_ok s ->
  (a_on_curve a b a0 p = true <-> aff p <> None /\ on_curve a b (aff p)) /\
  (p_on_curve a b a0 q = true <-> proj q <> None /\ on_curve a b (proj q)) /\
  (j_on_curve a b a0 r = true <-> jac r <> None /\ on_curve a b (jac r)) /\
  (x_on_curve a b a0 s = true <-> xyzz_pt s <> None /\ on_curve a b (xyzz_pt s)).
Proof. exact c86_on_curve. Qed.
Print Assumptions C86_is_on_curve.

Theorem C86_affine_equality_negation : forall (K : fld) (p q : affine K),
  (a_eqb p q = true <-> aff p = aff q) /\ aff (a_neg p) = minus (aff p) /\ (a_is_zero p = true <-> aff p = None).
Proof. exact c86_affine_equality. Qed.
Print Assumptions C86_affine_equality_negation.
Example C86_nonvacuous :
  a_on_curve (e7 1) (e7 1) false (mkA (e7 2) (e7 2)) = true /\ a_on_curve (e7 1) (e7 1) false (mkA (e7 2) (e7 3)) = false /\
  j_on_curve (e7 1) (e7 1) false (mkJ (e7 1) (e7 2) (e7 2)) = true /\ j_on_curve (e7 1) (e7 1) false j_zero = false.
Proof. ands; vm_compute; reflexivity. Qed.

(** ** C87: every curve point has an affine form -- except (0, 0), a point of the curve when b = 0, which reads as infinity. *)
Theorem C87_affine_form_partial : forall (K : fld) (a b : K) (P : point K), b <> 0 -> on_curve a b P -> exists p : affine K, aff p = P.
Proof.
  exact (fun K a b P Hb HP => match P return on_curve a b P -> exists p : affine K, aff p = P with
    | None => fun _ => ex_intro _ a_zero (aff_zero' K)
    | Some (x, y) => fun H => ex_intro _ (mkA x y) (aff_some K x y (curve_not_origin K a b _ Hb H)) end HP).
Qed.
Print Assumptions C87_affine_form_partial.

Theorem C87_affine_form_refuted : exists (a b : F7) (p : jacobian F7), (1 + 1 : F7) <> 0 /\ a <> 0 /\ on_curve a b (jac p) /\ jac p <> None /\
  aff (j_to_a p) = None /\ forall q : affine F7, aff q <> jac p.
Proof.
  exists (e7 1), (e7 0), (mkJ (e7 0) (e7 0) (e7 1)). ands.
  - intro H. apply (f_equal (zval 7)) in H. vm_compute in H. discriminate.
  - intro H. apply (f_equal (zval 7)) in H. vm_compute in H. discriminate.
  - apply (zp_eq 7). vm_compute. reflexivity.
  - intro H. apply (f_equal zpoint) in H. vm_compute in H. discriminate.
  - assert (H : zpoint (aff (j_to_a (mkJ (e7 0) (e7 0) (e7 1)))) = None) by (vm_compute; reflexivity).
    destruct (aff (j_to_a (mkJ (e7 0) (e7 0) (e7 1)))); [discriminate|reflexivity].
  - intros [x y] H. assert (HP : zpoint (jac (mkJ (e7 0) (e7 0) (e7 1))) = Some (0, 0)%Z) by (vm_compute; reflexivity). rewrite <- H in HP.
    unfold aff in HP. cbn [ax ay] in HP. destruct (feqb x 0 && feqb y 0) eqn:E; [discriminate HP|].
    cbn [zpoint option_map fst snd] in HP. injection HP as Hx Hy.
    assert (Ex : x = (0 : F7)) by (apply (zp_eq 7); exact Hx). assert (Ey : y = (0 : F7)) by (apply (zp_eq 7); exact Hy).
    subst. rewrite !feqb_refl in E. discriminate.
Qed.
Print Assumptions C87_affine_form_refuted.
