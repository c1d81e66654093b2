(** The extension fields of tachyon/math/finite_fields: QuadraticExtensionField, CubicExtensionField
    and QuarticExtensionField.  Everything is parametric in the base field, here a [fld]; the base
    field's own Add/Mul/Square/Double/Inverse are taken at their mathematical meaning (they are the
    subject of C09-C12 for prime fields, and of this very file for the levels of a tower).

    References that may alias are modelled explicitly: a [ref] is either the value of an object
    distinct from the output object, or the output object itself, in which case every read sees the
    writes made so far. *)
From Coq Require Import List Bool Arith.
From Verif Require Import Field.
Import ListNotations.
Open Scope fld_scope.

(** A `const Derived&` parameter of a function that also has an output parameter `Derived& c`. *)
Inductive ref (X : Type) : Type := Other (x : X) | Out.
Arguments Other {X} x. Arguments Out {X}.
(** Reading through the reference when the output object currently holds [c]. *)
Definition deref {X} (r : ref X) (c : X) : X := match r with Other x => x | Out => c end.

Section Base.
  Context {K : fld}.
  (** ring.h:67-77 DoSumOfProductsSerial *)
  Definition sum_of_products_serial (a b : list K) : K :=
    fold_left (fun sum p => sum + fst p * snd p) (combine a b) 0.
  (** AdditiveSemigroup::Double of the base field *)
  Definition dbl (x : K) : K := x + x.
  (** Square of the base field *)
  Definition sqr (x : K) : K := x * x.
  (** Inverse of the base field: fails exactly on zero *)
  Definition inverse_opt (x : K) : option K := if feqb x 0 then None else Some (finv x).
End Base.

(** ** QuadraticExtensionField (quadratic_extension_field.h) *)
Section Quadratic.
  Context {K : fld}.
  (** Config::MulByNonResidue, ExtensionDegree() == 2 (the base is the prime field),
      Config::kNonResidueIsMinusOne *)
  Variables (nr : K -> K) (prime_base nr_is_minus_one : bool).

  (** :430-432 the two coefficients *)
  Record quad : Type := Quad { q0 : K; q1 : K }.
  Definition set_q0 (x : quad) (v : K) : quad := Quad v (q1 x).
  Definition set_q1 (x : quad) (v : K) : quad := Quad (q0 x) v.

  (** :48-58 Zero(), One() *)
  Definition quad_zero : quad := Quad 0 0.
  Definition quad_one : quad := Quad 1 0.
  (** :86 IsZero *)
  Definition quad_is_zero (x : quad) : bool := feqb (q0 x) 0 && feqb (q1 x) 0.
  (** :88 IsOne *)
  Definition quad_is_one (x : quad) : bool := feqb (q0 x) 1 && feqb (q1 x) 0.
  (** :96-101 Conjugate *)
  Definition quad_conjugate (x : quad) : quad := Quad (q0 x) (- q1 x).
  (** :112-114 Norm *)
  Definition quad_norm (x : quad) : K := sqr (q0 x) - nr (sqr (q1 x)).
  (** :151-153 operator== *)
  Definition quad_eqb (x y : quad) : bool := feqb (q0 x) (q0 y) && feqb (q1 x) (q1 y).
  (** :178-183 Add *)
  Definition quad_add (x y : quad) : quad := Quad (q0 x + q0 y) (q1 x + q1 y).
  (** :185-189 AddInPlace; [other] may be the receiver *)
  Definition quad_add_in_place (c : quad) (other : ref quad) : quad :=
    let c := set_q0 c (q0 c + q0 (deref other c)) in
    let c := set_q1 c (q1 c + q1 (deref other c)) in c.
  (** :191-196 DoubleImpl *)
  Definition quad_double (x : quad) : quad := Quad (dbl (q0 x)) (dbl (q1 x)).
  (** :205-210 Sub *)
  Definition quad_sub (x y : quad) : quad := Quad (q0 x - q0 y) (q1 x - q1 y).
  (** :212-216 SubInPlace *)
  Definition quad_sub_in_place (c : quad) (other : ref quad) : quad :=
    let c := set_q0 c (q0 c - q0 (deref other c)) in
    let c := set_q1 c (q1 c - q1 (deref other c)) in c.
  (** :218-223 Negate *)
  Definition quad_negate (x : quad) : quad := Quad (- q0 x) (- q1 x).
  (** :244-249 Mul(const BaseField&) *)
  Definition quad_mul_base (x : quad) (e : K) : quad := Quad (q0 x * e) (q1 x * e).
  (** :251-255 MulInPlace(const BaseField& element); [element] may be a coefficient of the receiver,
      as in `x *= x.c0()`: then it is [inr] of a projection of the receiver. *)
  Definition quad_mul_base_in_place (c : quad) (element : K + (quad -> K)) : quad :=
    let rd c := match element with inl e => e | inr f => f c end in
    let c := set_q0 c (q0 c * rd c) in
    let c := set_q1 c (q1 c * rd c) in c.

  (** :315-359 DoMul *)
  Definition quad_do_mul (a b : ref quad) (c : quad) : quad :=
    if prime_base then
      let t := sum_of_products_serial [q0 (deref a c); nr (q1 (deref a c))]
                                      [q0 (deref b c); q1 (deref b c)] in
      let c := set_q1 c (sum_of_products_serial [q0 (deref a c); q1 (deref a c)]
                                                [q1 (deref b c); q0 (deref b c)]) in
      set_q0 c t
    else
      let v0 := q0 (deref a c) * q0 (deref b c) in
      let v1 := q1 (deref a c) * q1 (deref b c) in
      let c := set_q1 c (q0 (deref a c) + q1 (deref a c)) in
      let c := set_q1 c (q1 c * (q0 (deref b c) + q1 (deref b c))) in
      let c := set_q1 c (q1 c - v0) in
      let c := set_q1 c (q1 c - v1) in
      set_q0 c (v0 + nr v1).
  (** :232-236 Mul *)
  Definition quad_mul (x y : quad) : quad := quad_do_mul (Other x) (Other y) quad_zero.
  (** :238-242 MulInPlace; the receiver is both the first operand and the output *)
  Definition quad_mul_in_place (c : quad) (other : ref quad) : quad := quad_do_mul Out other c.

  (** :361-405 DoSquareImpl *)
  Definition quad_do_square (a : ref quad) (b : quad) : quad :=
    let v0 := q0 (deref a b) - q1 (deref a b) in
    let v1 := q0 (deref a b) * q1 (deref a b) in
    if nr_is_minus_one then
      let v0 := v0 * (q0 (deref a b) + q1 (deref a b)) in
      let b := set_q0 b v0 in
      set_q1 b (dbl v1)
    else
      let v2 := q0 (deref a b) - nr (q1 (deref a b)) in
      let v0 := v0 * v2 in
      let b := set_q0 b (v0 + v1) in
      let b := set_q0 b (q0 b + nr v1) in
      set_q1 b (dbl v1).
  (** :257-267 SquareImpl, SquareImplInPlace *)
  Definition quad_square (x : quad) : quad := quad_do_square (Other x) quad_zero.
  Definition quad_square_in_place (x : quad) : quad := quad_do_square Out x.

  (** :407-428 DoInverse; [None] is the `return false` *)
  Definition quad_do_inverse (a : ref quad) (b : quad) : option quad :=
    if quad_is_zero (deref a b) then None else
    let v1 := sqr (q1 (deref a b)) in
    let v0 := sqr (q0 (deref a b)) in
    let v0 := v0 - nr v1 in
    match inverse_opt v0 with
    | None => None
    | Some v1 =>
        let b := set_q0 b (q0 (deref a b) * v1) in
        let b := set_q1 b (q1 (deref a b) * v1) in
        Some (set_q1 b (- q1 b))
    end.
  (** :270-286 Inverse, InverseInPlace *)
  Definition quad_inverse (x : quad) : option quad := quad_do_inverse (Other x) quad_zero.
  Definition quad_inverse_in_place (x : quad) : option quad := quad_do_inverse Out x.

  (** :289-302 FastCyclotomicInverse *)
  Definition quad_fast_cyclotomic_inverse (x : quad) : option quad :=
    if quad_is_zero x then None else Some (quad_conjugate x).

  (** :67-80 FromBasePrimeFields / :82 ToBaseFields for a prime base field *)
  Definition quad_to_base (x : quad) : list K := [q0 x; q1 x].
End Quadratic.
Arguments quad K : clear implicits.
Arguments Quad {K} _ _.

(** ** CubicExtensionField (cubic_extension_field.h) *)
Section Cubic.
  Context {K : fld}.
  Variable nr : K -> K.

  (** :476-479 *)
  Record cubic : Type := Cubic { k0 : K; k1 : K; k2 : K }.
  Definition set_k0 (x : cubic) (v : K) : cubic := Cubic v (k1 x) (k2 x).
  Definition set_k1 (x : cubic) (v : K) : cubic := Cubic (k0 x) v (k2 x).
  Definition set_k2 (x : cubic) (v : K) : cubic := Cubic (k0 x) (k1 x) v.
  (** :47-58 *)
  Definition cubic_zero : cubic := Cubic 0 0 0.
  Definition cubic_one : cubic := Cubic 1 0 0.
  (** :92-98 *)
  Definition cubic_is_zero (x : cubic) : bool := feqb (k0 x) 0 && feqb (k1 x) 0 && feqb (k2 x) 0.
  (** operator== *)
  Definition cubic_eqb (x y : cubic) : bool := feqb (k0 x) (k0 y) && feqb (k1 x) (k1 y) && feqb (k2 x) (k2 y).
  (** :206-219 *)
  Definition cubic_add (x y : cubic) : cubic := Cubic (k0 x + k0 y) (k1 x + k1 y) (k2 x + k2 y).
  Definition cubic_add_in_place (c : cubic) (other : ref cubic) : cubic :=
    let c := set_k0 c (k0 c + k0 (deref other c)) in
    let c := set_k1 c (k1 c + k1 (deref other c)) in
    let c := set_k2 c (k2 c + k2 (deref other c)) in c.
  (** :221-227 *)
  Definition cubic_double (x : cubic) : cubic := Cubic (dbl (k0 x)) (dbl (k1 x)) (dbl (k2 x)).
  (** :237-250 *)
  Definition cubic_sub (x y : cubic) : cubic := Cubic (k0 x - k0 y) (k1 x - k1 y) (k2 x - k2 y).
  Definition cubic_sub_in_place (c : cubic) (other : ref cubic) : cubic :=
    let c := set_k0 c (k0 c - k0 (deref other c)) in
    let c := set_k1 c (k1 c - k1 (deref other c)) in
    let c := set_k2 c (k2 c - k2 (deref other c)) in c.
  (** :252-258 *)
  Definition cubic_negate (x : cubic) : cubic := Cubic (- k0 x) (- k1 x) (- k2 x).
  (** :280-293 *)
  Definition cubic_mul_base (x : cubic) (e : K) : cubic := Cubic (k0 x * e) (k1 x * e) (k2 x * e).
  Definition cubic_mul_base_in_place (c : cubic) (element : K + (cubic -> K)) : cubic :=
    let rd c := match element with inl e => e | inr f => f c end in
    let c := set_k0 c (k0 c * rd c) in
    let c := set_k1 c (k1 c * rd c) in
    let c := set_k2 c (k2 c * rd c) in c.

  (** :330-368 DoMul *)
  Definition cubic_do_mul (a b : ref cubic) (c : cubic) : cubic :=
    let v0 := k0 (deref a c) * k0 (deref b c) in
    let v1 := k1 (deref a c) * k1 (deref b c) in
    let v2 := k2 (deref a c) * k2 (deref b c) in
    let x := (k0 (deref a c) + k1 (deref a c)) * (k0 (deref b c) + k1 (deref b c)) - v0 - v1 in
    let y := (k0 (deref a c) + k2 (deref a c)) * (k0 (deref b c) + k2 (deref b c)) - v0 - v2 in
    let z := (k1 (deref a c) + k2 (deref a c)) * (k1 (deref b c) + k2 (deref b c)) - v1 - v2 in
    let c := set_k0 c (v0 + nr z) in
    let c := set_k1 c (x + nr v2) in
    set_k2 c (y + v1).
  Definition cubic_mul (x y : cubic) : cubic := cubic_do_mul (Other x) (Other y) cubic_zero.
  Definition cubic_mul_in_place (c : cubic) (other : ref cubic) : cubic := cubic_do_mul Out other c.

  (** :370-408 DoSquareImpl *)
  Definition cubic_do_square (a : ref cubic) (b : cubic) : cubic :=
    let s0 := sqr (k0 (deref a b)) in
    let s1 := dbl (k0 (deref a b) * k1 (deref a b)) in
    let s2 := sqr (k0 (deref a b) - k1 (deref a b) + k2 (deref a b)) in
    let s3 := dbl (k1 (deref a b) * k2 (deref a b)) in
    let s4 := sqr (k2 (deref a b)) in
    let b := set_k0 b (s0 + nr s3) in
    let b := set_k1 b (s1 + nr s4) in
    set_k2 b (s1 + s2 + s3 - s0 - s4).
  Definition cubic_square (x : cubic) : cubic := cubic_do_square (Other x) cubic_zero.
  Definition cubic_square_in_place (x : cubic) : cubic := cubic_do_square Out x.

  (** :410-474 DoInverse *)
  Definition cubic_do_inverse (a : ref cubic) (b : cubic) : option cubic :=
    if cubic_is_zero (deref a b) then None else
    let t0 := sqr (k0 (deref a b)) in
    let t1 := sqr (k1 (deref a b)) in
    let t2 := sqr (k2 (deref a b)) in
    let t3 := k0 (deref a b) * k1 (deref a b) in
    let t4 := k0 (deref a b) * k2 (deref a b) in
    let t5 := k1 (deref a b) * k2 (deref a b) in
    let s0 := t0 - nr t5 in
    let s1 := nr t2 - t3 in
    let s2 := t1 - t4 in
    let a1 := k2 (deref a b) * s1 in
    let a2 := k1 (deref a b) * s2 in
    let a3 := nr (a1 + a2) in
    match inverse_opt (k0 (deref a b) * s0 + a3) with
    | None => None
    | Some t6 =>
        let b := set_k0 b (s0 * t6) in
        let b := set_k1 b (s1 * t6) in
        Some (set_k2 b (s2 * t6))
    end.
  Definition cubic_inverse (x : cubic) : option cubic := cubic_do_inverse (Other x) cubic_zero.
  Definition cubic_inverse_in_place (x : cubic) : option cubic := cubic_do_inverse Out x.
  Definition cubic_to_base (x : cubic) : list K := [k0 x; k1 x; k2 x].
End Cubic.
Arguments cubic K : clear implicits.
Arguments Cubic {K} _ _ _.

(** ** QuarticExtensionField (quartic_extension_field.h), over a prime field *)
Section Quartic.
  Context {K : fld}.
  Variable nr : K -> K.

  (** :110-130 Init: `*BaseField(n).Inverse()`.  Where n is zero in the base field the dereference
      of the empty optional is undefined; the theorems assume 2, 3 and 5 invertible. *)
  Definition kInv (n : nat) : K := finv (fnat n).
  Definition kInv3 := kInv 3. Definition kInv4 := kInv 4. Definition kInv6 := kInv 6.
  Definition kInv12 := kInv 12. Definition kInv20 := kInv 20. Definition kInv24 := kInv 24.
  Definition kInv30 := kInv 30. Definition kInv120 := kInv 120.
  Definition kNeg5 : K := - fnat 5.
  Definition kNegInv2 := - kInv 2. Definition kNegInv3 := - kInv3. Definition kNegInv4 := - kInv4.
  Definition kNegInv6 := - kInv6. Definition kNegInv12 := - kInv12. Definition kNegInv24 := - kInv24.
  Definition kNegInv120 := - kInv120.

  Record quartic : Type := Quartic { r0 : K; r1 : K; r2 : K; r3 : K }.
  Definition set_r0 (x : quartic) v := Quartic v (r1 x) (r2 x) (r3 x).
  Definition set_r1 (x : quartic) v := Quartic (r0 x) v (r2 x) (r3 x).
  Definition set_r2 (x : quartic) v := Quartic (r0 x) (r1 x) v (r3 x).
  Definition set_r3 (x : quartic) v := Quartic (r0 x) (r1 x) (r2 x) v.
  (** :54-62 *)
  Definition quartic_zero : quartic := Quartic 0 0 0 0.
  Definition quartic_one : quartic := Quartic 1 0 0 0.
  (** :132-134 *)
  Definition quartic_is_zero (x : quartic) : bool :=
    feqb (r0 x) 0 && feqb (r1 x) 0 && feqb (r2 x) 0 && feqb (r3 x) 0.
  Definition quartic_eqb (x y : quartic) : bool :=
    feqb (r0 x) (r0 y) && feqb (r1 x) (r1 y) && feqb (r2 x) (r2 y) && feqb (r3 x) (r3 y).
  Definition quartic_add (x y : quartic) := Quartic (r0 x + r0 y) (r1 x + r1 y) (r2 x + r2 y) (r3 x + r3 y).
  Definition quartic_sub (x y : quartic) := Quartic (r0 x - r0 y) (r1 x - r1 y) (r2 x - r2 y) (r3 x - r3 y).
  Definition quartic_negate (x : quartic) := Quartic (- r0 x) (- r1 x) (- r2 x) (- r3 x).
  Definition quartic_mul_base (x : quartic) (e : K) := Quartic (r0 x * e) (r1 x * e) (r2 x * e) (r3 x * e).

  (** :470-492 the interpolation step shared by DoMul (:470-492) and DoSquareImpl (:540-562), which
      repeat it verbatim; it writes the four output coefficients from v0..v6. *)
  Definition quartic_interpolate (v0 v1 v2 v3 v4 v5 v6 : K) (c : quartic) : quartic :=
    let v0_5 := dbl v0 in
    let v0_5 := dbl v0_5 + v0 in
    let v6_3 := dbl v6 in
    let v6_3 := v6_3 + v6 in
    let c := set_r0 c (v0 + nr (kInv4 * v0 + kNegInv6 * (v1 + v2) + kInv24 * (v3 + v4) + kNeg5 * v6)) in
    let c := set_r1 c (kNegInv3 * v0 + v1 + kNegInv2 * v2 + kNegInv4 * v3 + kInv20 * v4 + kInv30 * v5
                        - dbl (dbl v6_3)
                        + nr (kNegInv12 * (v0 - v1) + kInv24 * (v2 - v3) + kNegInv120 * (v4 - v5) - v6_3)) in
    let c := set_r2 c (kNegInv4 * v0_5 + kInv3 * dbl (v1 + v2) + kNegInv24 * (v3 + v4) + dbl (dbl v6) + nr v6) in
    set_r3 c (kInv12 * (v0_5 - dbl (dbl (dbl v1)) + v1)
              + kNegInv24 * (v2 - dbl (dbl (dbl v3)) + v3 + v4 + v5) + dbl (dbl v6_3) + v6_3).

  (** :394-493 DoMul.  All reads of a and b precede the first write of c. *)
  Definition quartic_do_mul (ra rb : ref quartic) (c : quartic) : quartic :=
    let a := deref ra c in
    let b := deref rb c in
    let h1 := dbl (r1 a) in
    let h2 := dbl (dbl (r2 a)) in
    let h3 := dbl (dbl (dbl (r3 a))) in
    let h4 := dbl (r1 b) in
    let h5 := dbl (dbl (r2 b)) in
    let h6 := dbl (dbl (dbl (r3 b))) in
    let v0 := r0 a * r0 b in
    let v1 := (r0 a + r1 a + r2 a + r3 a) * (r0 b + r1 b + r2 b + r3 b) in
    let v2 := (r0 a - r1 a + r2 a - r3 a) * (r0 b - r1 b + r2 b - r3 b) in
    let v3 := (r0 a + h1 + h2 + h3) * (r0 b + h4 + h5 + h6) in
    let v4 := (r0 a - h1 + h2 - h3) * (r0 b - h4 + h5 - h6) in
    let h1 := h1 + r1 a in
    let h2 := dbl h2 + r2 a in
    let h3 := h3 + r3 a in
    let h3 := h3 + dbl h3 in
    let h4 := h4 + r1 b in
    let h5 := dbl h5 + r2 b in
    let h6 := h6 + r3 b in
    let h6 := h6 + dbl h6 in
    let v5 := (r0 a + h1 + h2 + h3) * (r0 b + h4 + h5 + h6) in
    let v6 := r3 a * r3 b in
    quartic_interpolate v0 v1 v2 v3 v4 v5 v6 c.
  Definition quartic_mul (x y : quartic) : quartic := quartic_do_mul (Other x) (Other y) quartic_zero.
  Definition quartic_mul_in_place (c : quartic) (other : ref quartic) : quartic := quartic_do_mul Out other c.

  (** :495-563 DoSquareImpl *)
  Definition quartic_do_square (ra : ref quartic) (b : quartic) : quartic :=
    let a := deref ra b in
    let h1 := dbl (r1 a) in
    let h2 := dbl (dbl (r2 a)) in
    let h3 := dbl (dbl (dbl (r3 a))) in
    let v0 := sqr (r0 a) in
    let v1 := sqr (r0 a + r1 a + r2 a + r3 a) in
    let v2 := sqr (r0 a - r1 a + r2 a - r3 a) in
    let v3 := sqr (r0 a + h1 + h2 + h3) in
    let v4 := sqr (r0 a - h1 + h2 - h3) in
    let h1 := h1 + r1 a in
    let h2 := dbl h2 + r2 a in
    let h3 := h3 + r3 a in
    let h3 := h3 + dbl h3 in
    let v5 := sqr (r0 a + h1 + h2 + h3) in
    let v6 := sqr (r3 a) in
    quartic_interpolate v0 v1 v2 v3 v4 v5 v6 b.
  Definition quartic_square (x : quartic) : quartic := quartic_do_square (Other x) quartic_zero.
  Definition quartic_square_in_place (x : quartic) : quartic := quartic_do_square Out x.

  (** :173-185 FrobeniusMapInPlace over a prime field, where the coefficients' own Frobenius map is
      the identity; [cf k e] is kFrobeniusCoeffs{,2,3}[e] for k = 1, 2, 3 *)
  Variable cf : nat -> nat -> K.
  Definition quartic_frobenius (x : quartic) (e : nat) : quartic :=
    Quartic (r0 x) (r1 x * cf 1 (e mod 4)) (r2 x * cf 2 (e mod 4)) (r3 x * cf 3 (e mod 4)).

  (** The three outcomes of an inversion: it reports failure, it dereferences an empty optional
      (undefined behaviour), or it returns a value. *)
  Inductive inv_outcome : Type := InvFails | InvUndefined | InvReturns (x : quartic).

  (** :565-600 DoInverse (BaseField::ExtensionDegree() == 1) *)
  Definition quartic_do_inverse (ra : ref quartic) (b : quartic) : inv_outcome :=
    let a := deref ra b in
    if quartic_is_zero a then InvFails else
    let f := quartic_frobenius a 1 in
    let a_to_p2 := quartic_frobenius a 2 in
    let a_to_p3 := quartic_frobenius a 3 in
    let f := quartic_mul_in_place f (Other (quartic_mul a_to_p2 a_to_p3)) in
    let r := 0 in
    let r := r + r1 a * r3 f in
    let r := r + r2 a * r2 f in
    let r := r + r3 a * r1 f in
    let r := nr r in
    let r := r + r0 a * r0 f in
    match inverse_opt r with
    | None => InvUndefined
    | Some i => InvReturns (quartic_mul_base f i)
    end.
  Definition quartic_inverse (x : quartic) := quartic_do_inverse (Other x) quartic_zero.
  Definition quartic_inverse_in_place (x : quartic) := quartic_do_inverse Out x.
  (** :151-171 Norm; [None] is the failing CHECK *)
  Definition quartic_norm (x : quartic) : option K :=
    let p1 := quartic_frobenius x 1 in
    let p2 := quartic_frobenius x 2 in
    let p3 := quartic_frobenius x 3 in
    let t := quartic_mul_in_place p1 (Other (quartic_mul (quartic_mul p2 p3) x)) in
    if feqb (r1 t) 0 && feqb (r2 t) 0 && feqb (r3 t) 0 then Some (r0 t) else None.
  Definition quartic_to_base (x : quartic) : list K := [r0 x; r1 x; r2 x; r3 x].
End Quartic.
Arguments quartic K : clear implicits.
Arguments Quartic {K} _ _ _ _.
Arguments inv_outcome K : clear implicits.
