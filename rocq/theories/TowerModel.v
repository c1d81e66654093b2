(** The tower fields Fp2, Fp3, Fp4, Fp6 and Fp12: Frobenius maps, the generated MulByNonResidue, the
    sparse multiplications of the Miller loop, and the cyclotomic subgroup operations. *)
From Coq Require Import ZArith List Bool Arith.
From Verif Require Import Field BigIntModel SemigroupModel ExtFieldModel.
Import ListNotations.
Open Scope fld_scope.

(** ** Frobenius maps *)

(** The coefficient tables set by DoInit: kFrobeniusCoeffs (k = 1), kFrobeniusCoeffs2 (k = 2) and
    kFrobeniusCoeffs3 (k = 3) hold z^(k (P^d - 1)/m) at index d, where z is a non-residue and m the
    degree of its root.  fp3.h:66-96 (m = 3), fp4.h:84-100 and 170-215 (m = 4), fp6.h:180-216 (m = 6)
    and 358-402 (m = 3), fp12.h:355-395 (m = 6).  The exponent is computed with GMP and copied to a
    BigInt<d * N>, in which it fits. *)
Definition frob_coeff {C : fld} (p m : nat) (z : C) (k d : nat) : C :=
  match d with O => 1 | S _ => z ^ (k * Nat.div (p ^ d - 1) m) end.
(** fp2.h:48-49: the table of Fp2 is [1; -1] *)
Definition frob_coeff_fp2 {C : fld} (d : nat) : C := match d with O => 1 | S _ => - f1 end.

(** quadratic_extension_field.h:116-122 FrobeniusMapInPlace; [phi] is the base field's Frobenius map
    (the identity on a prime field), [act] the product of a coefficient and a table entry, whose type
    may be a subfield of the base field *)
Definition quad_frobenius {K C : fld} (phi : K -> nat -> K) (act : K -> C -> K) (cf : nat -> C) (deg : nat)
  (x : quad K) (e : nat) : quad K :=
  let c0 := phi (q0 x) e in
  let c1 := phi (q1 x) e in
  let c1 := act c1 (cf (Nat.modulo e deg)) in
  Quad c0 c1.
(** cubic_extension_field.h:130-139 *)
Definition cubic_frobenius {K C : fld} (phi : K -> nat -> K) (act : K -> C -> K) (cf cf2 : nat -> C) (deg : nat)
  (x : cubic K) (e : nat) : cubic K :=
  let c0 := phi (k0 x) e in
  let c1 := phi (k1 x) e in
  let c2 := phi (k2 x) e in
  let c1 := act c1 (cf (Nat.modulo e deg)) in
  let c2 := act c2 (cf2 (Nat.modulo e deg)) in
  Cubic c0 c1 c2.
(** prime fields: prime_field_base.h FrobeniusMapInPlace does nothing *)
Definition prime_frobenius {K : fld} (x : K) (e : nat) : K := x.

(** ** The generated MulByNonResidue *)

(** generator_util.cc:91-108 GenerateFastMultiplication: the emitted method calls.  [None] models the
    failing CHECK_NE(value, 0) and the signed overflow of -value. *)
Inductive fast_op := OpDouble | OpAddV | OpNegate.
Definition generate_fast_multiplication (value : Z) : option (list fast_op) :=
  if (value =? 0)%Z then None else
  if (value =? - 2 ^ 63)%Z then None else
  let is_negative := (value <? 0)%Z in
  let scalar := [if is_negative then (- value)%Z else value] in
  let bits := tl (bits_be_skipped scalar) in
  Some (flat_map (fun b : bool => if b then [OpDouble; OpAddV] else [OpDouble]) bits
        ++ (if is_negative then [OpNegate] else [])).
(** ext_field_generator.cc:51-59: `BaseField ret = v; return ret.DoubleInPlace()...;` *)
Definition run_fast_multiplication {K : fld} (ops : list fast_op) (v : K) : K :=
  fold_left (fun ret op => match op with
    | OpDouble => ret + ret
    | OpAddV => ret + v
    | OpNegate => - ret end) ops v.

(** bn254/BUILD.bazel:80-95: MulByNonResidue of Fq6, over Fq2 with non-residue 9 + u; [nr2] is
    MulByNonResidue of Fq2 *)
Definition bn254_fq6_mul_by_non_residue {F : fld} (nr2 : F -> F) (v : quad F) : quad F :=
  let f := quad_double (quad_double (quad_double v)) in
  let c0 := nr2 (q1 v) in
  let c0 := c0 + q0 f in
  let c0 := c0 + q0 v in
  let c1 := q1 f + q1 v + q0 v in
  Quad c0 c1.
(** bls12_381/BUILD.bazel:91-94: non-residue 1 + u *)
Definition bls12_381_fq6_mul_by_non_residue {F : fld} (v : quad F) : quad F :=
  Quad (q0 v - q1 v) (q0 v + q1 v).
(** ext_field_generator.cc:61-77: degree 4 over degree 2 with non-residue (0, 1) *)
Definition shift_mul_by_non_residue2 {F : fld} (nr2 : F -> F) (v : quad F) : quad F := Quad (nr2 (q1 v)) (q0 v).
(** and degree 12 over degree 6 with non-residue (0, 1, 0) *)
Definition shift_mul_by_non_residue3 {F : fld} (nr3 : F -> F) (v : cubic F) : cubic F := Cubic (nr3 (k2 v)) (k0 v) (k1 v).

(** ext_field_generator.cc:106-109: kNonResidueIsMinusOne looks at the first coefficient only *)
Definition generated_is_minus_one (non_residue : list Z) : bool := (hd 0%Z non_residue =? -1)%Z.

(** ** Sparse multiplications *)

(** fp6.h:251-265 MulInPlaceBy1 on a cubic Fp6 *)
Definition fp6_mul_by_1 {K : fld} (nr : K -> K) (x : cubic K) (beta1 : K) : cubic K :=
  let t0 := k2 x * beta1 in
  let x := set_k2 x (k1 x * beta1) in
  let x := set_k1 x (k0 x * beta1) in
  set_k0 x (nr t0).
(** fp6.h:268-312 MulInPlaceBy01 *)
Definition fp6_mul_by_01 {K : fld} (nr : K -> K) (x : cubic K) (beta0 beta1 : K) : cubic K :=
  let t0 := k2 x * beta1 in
  let t0 := nr t0 in
  let t0 := t0 + k0 x * beta0 in
  let t1 := k0 x * beta1 in
  let t1 := t1 + k1 x * beta0 in
  let t2 := k2 x * beta0 in
  let t2 := t2 + k1 x * beta1 in
  let x := set_k0 x t0 in
  let x := set_k1 x t1 in
  set_k2 x t2.

(** fp6.h:49-91 and 95-135: MulInPlaceBy034/014 on a quadratic Fp6 over Fp3; the element
    (α₀ + α₁x + α₂x²) + (α₃ + α₄x + α₅x²)y is the pair of its two cubic halves *)
Definition fp6q_mul_by_034 {F : fld} (nr3 : F -> F) (c : cubic F * cubic F) (x0 x3 x4 : F) : cubic F * cubic F :=
  let z0 := k0 (fst c) in let z1 := k1 (fst c) in let z2 := k2 (fst c) in
  let z3 := k0 (snd c) in let z4 := k1 (snd c) in let z5 := k2 (snd c) in
  let tmp1 := nr3 x3 in
  let tmp2 := nr3 x4 in
  (Cubic (z0 * x0 + z4 * tmp2 + z5 * tmp1) (z1 * x0 + z3 * x3 + z5 * tmp2) (z2 * x0 + z3 * x4 + z4 * x3),
   Cubic (z0 * x3 + z2 * tmp2 + z3 * x0) (z0 * x4 + z1 * x3 + z4 * x0) (z1 * x4 + z2 * x3 + z5 * x0)).
Definition fp6q_mul_by_014 {F : fld} (nr3 : F -> F) (c : cubic F * cubic F) (x0 x1 x4 : F) : cubic F * cubic F :=
  let z0 := k0 (fst c) in let z1 := k1 (fst c) in let z2 := k2 (fst c) in
  let z3 := k0 (snd c) in let z4 := k1 (snd c) in let z5 := k2 (snd c) in
  let tmp1 := nr3 x1 in
  let tmp2 := nr3 x4 in
  (Cubic (z0 * x0 + z2 * tmp1 + z4 * tmp2) (z0 * x1 + z1 * x0 + z5 * tmp2) (z1 * x1 + z2 * x0 + z3 * x4),
   Cubic (z2 * tmp2 + z3 * x0 + z5 * tmp1) (z0 * x4 + z3 * x1 + z4 * x0) (z1 * x4 + z4 * x1 + z5 * x0)).

(** Fp12 elements are pairs of cubic Fp6 elements (c0, c1).  [nr] is Fp6's MulByNonResidue on Fp2,
    [nr12] is Fp12's MulByNonResidue on Fp6. *)
Section Fp12.
  Context {K : fld}.
  Variables (nr : K -> K) (nr12 : cubic K -> cubic K).
  Definition fp12 : Type := (cubic K * cubic K)%type.

  (** fp12.h:60-104 MulInPlaceBy034 *)
  Definition fp12_mul_by_034 (x : fp12) (beta0 beta3 beta4 : K) : fp12 :=
    let '(c0, c1) := x in
    let a := cubic_mul_base c0 beta0 in
    let b := c1 in
    let b := fp6_mul_by_01 nr b beta3 beta4 in
    let c1 := cubic_add c1 c0 in
    let c1 := fp6_mul_by_01 nr c1 (beta0 + beta3) beta4 in
    let c1 := cubic_sub c1 a in
    let c1 := cubic_sub c1 b in
    let c0 := nr12 b in
    let c0 := cubic_add c0 a in
    (c0, c1).
  (** fp12.h:107-160 MulInPlaceBy014 *)
  Definition fp12_mul_by_014 (x : fp12) (beta0 beta1 beta4 : K) : fp12 :=
    let '(c0, c1) := x in
    let a := c0 in
    let a := fp6_mul_by_01 nr a beta0 beta1 in
    let b := c1 in
    let b := fp6_mul_by_1 nr b beta4 in
    let c1 := cubic_add c1 c0 in
    let c1 := fp6_mul_by_01 nr c1 beta0 (beta1 + beta4) in
    let c1 := cubic_sub c1 a in
    let c1 := cubic_sub c1 b in
    let c0 := nr12 b in
    let c0 := cubic_add c0 a in
    (c0, c1).

  (** fp12.h:162-262 DoFastCyclotomicSquare, kModulusModSixIsOne branch *)
  Definition fp12_fast_cyclotomic_square (a : fp12) : fp12 :=
    let a0 := k0 (fst a) in let a1 := k1 (fst a) in let a2 := k2 (fst a) in
    let a3 := k0 (snd a) in let a4 := k1 (snd a) in let a5 := k2 (snd a) in
    let tmp := a0 * a4 in
    let t0 := (a0 + a4) * (a0 + nr a4) - tmp - nr tmp in
    let t1 := dbl tmp in
    let tmp := a3 * a2 in
    let t2 := (a3 + a2) * (a3 + nr a2) - tmp - nr tmp in
    let t3 := dbl tmp in
    let tmp := a1 * a5 in
    let t4 := (a1 + a5) * (a1 + nr a5) - tmp - nr tmp in
    let t5 := dbl tmp in
    let z0 := k0 (fst a) in let z4 := k1 (fst a) in let z3 := k2 (fst a) in
    let z2 := k0 (snd a) in let z1 := k1 (snd a) in let z5 := k2 (snd a) in
    let z0 := t0 - z0 in let z0 := dbl z0 in let z0 := z0 + t0 in
    let z1 := t1 + z1 in let z1 := dbl z1 in let z1 := z1 + t1 in
    let tmp := nr t5 in
    let z2 := z2 + tmp in let z2 := dbl z2 in let z2 := z2 + tmp in
    let z3 := t4 - z3 in let z3 := dbl z3 in let z3 := z3 + t4 in
    let z4 := t2 - z4 in let z4 := dbl z4 in let z4 := z4 + t2 in
    let z5 := z5 + t3 in let z5 := dbl z5 in let z5 := z5 + t3 in
    (Cubic z0 z4 z3, Cubic z2 z1 z5).
End Fp12.
Arguments fp12 K : clear implicits.

(** ** Exponentiation in the cyclotomic subgroup *)

(** cyclotomic_multiplicative_subgroup.h:103-136 DoCyclotomicPow over the digits, most significant
    first; [inverse] is the value of unwrap(CyclotomicInverse()) *)
Section CycPow.
  Context {G : Type}.
  Variables (one : G) (mul : G -> G -> G) (csq : G -> G).
  Definition cyc_pow_step (f inverse : G) (st : G * bool) (v : Z) : G * bool :=
    let '(ret, found_nonzero) := st in
    let ret := if found_nonzero then csq ret else ret in
    if (v =? 0)%Z then (ret, found_nonzero) else
    if (0 <? v)%Z then (mul ret f, true) else (mul ret inverse, true).
  Definition do_cyclotomic_pow (f inverse : G) (digits : list Z) : G :=
    fst (fold_left (cyc_pow_step f inverse) digits (one, false)).
  (** :77-93 CyclotomicPow for a type with a fast inverse: the digits are the reversed NAF.
      [None]: CyclotomicInverse() is empty (unwrap aborts) or ToNAF does not terminate. *)
  Definition cyclotomic_pow (zero : G) (is_zero : G -> bool) (inv : G -> option G) (f : G) (exponent : list Z) : option G :=
    if is_zero f then Some zero else
    match bi_to_naf exponent, inv f with
    | Some naf, Some i => Some (do_cyclotomic_pow f i (rev naf))
    | _, _ => None
    end.
End CycPow.
