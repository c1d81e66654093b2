(** Model of the 32-bit prime fields: finite_fields/small_prime_field.h, small_prime_field_mont.h, their
    configuration template generator/prime_field_generator/small_prime_field_config.h.tpl, the
    reduce64 of mersenne31/internal/BUILD.bazel, and math/base/egcd.h. Only definitions. *)
From Coq Require Import ZArith List Bool.
From Verif Require Import BigIntModel PrimeFieldModel SemigroupModel.
Import ListNotations.
Open Scope Z_scope.

(** math/base/egcd.h:17-37 EGCD<int64_t>::Compute. [None]: a signed overflow, or out of fuel (the theorems
    show neither happens). C++ division truncates toward zero: Z.quot. *)
Definition int64_ok (x : Z) : bool := (- 2 ^ 63 <=? x) && (x <? 2 ^ 63).
Definition i64 (x : Z) : option Z := if int64_ok x then Some x else None.
Definition i64_sub_mul (a q b : Z) : option Z :=
  match i64 (q * b) with None => None | Some m => i64 (a - m) end.
Fixpoint egcd_loop (fuel : nat) (r_prev r s_prev s t_prev t : Z) : option (Z * Z * Z) :=
  match fuel with
  | O => None
  | S f =>
      if r =? 0 then Some (s_prev, t_prev, r_prev)
      else
        match i64 (Z.quot r_prev r) with
        | None => None
        | Some q =>
            match i64_sub_mul r_prev q r, i64_sub_mul s_prev q s, i64_sub_mul t_prev q t with
            | Some r', Some s', Some t' => egcd_loop f r r' s s' t t'
            | _, _, _ => None
            end
        end
  end.
Definition egcd (x y : Z) : option (Z * Z * Z) := egcd_loop 127 x y 1 0 0 1.

Section Config.
  Variable p : Z. (* kModulus *)
  (** small_prime_field_config.h.tpl: %{reduce32} and %{reduce64} default to
      "return v >= kModulus ? v - kModulus : v;" (prime_field_generator.cc). *)
  Definition reduce_default (v : Z) : Z := if p <=? v then v - p else v.
  (** small_prime_field_config.h.tpl:53-56 AddMod, 58-61 SubMod (uint32_t arithmetic wraps). *)
  Definition add_mod (reduce32 : Z -> Z) (a b : Z) : Z := reduce32 (trunc 32 (a + b)).
  Definition sub_mod (reduce32 : Z -> Z) (a b : Z) : Z :=
    reduce32 (trunc 32 (trunc 32 (a + p) - b)).
  (** small_prime_field_config.h.tpl:71-73 ToMontgomery(uint32_t), 75-77 ToMontgomery(uint64_t): the
      latter with two-limb integers, which hold v << 32 exactly. *)
  Definition to_mont32 (v : Z) : Z := trunc 64 (Z.shiftl v 32) mod p.
  Definition to_mont64 (v : Z) : Z := trunc 128 (Z.shiftl v 32) mod p.

  (** %{inverse32}: p^-1 mod 2^32. prime_field_generator.cc negates Modulus::Inverse, which is
      -p^-1. *)
  Definition inverse32 : Z := trunc 32 (- modulus_inverse 32 [p]).
  (** small_prime_field_config.h.tpl:79-89 FromMontgomery(uint64_t). *)
  Definition from_mont (v : Z) : Z :=
    let t := Z.land (trunc 64 (v * inverse32)) (2 ^ 32 - 1) in
    let u := trunc 64 (t * p) in
    let ret := trunc 32 (Z.shiftr (trunc 64 (v - u)) 32) in
    if v <? u then trunc 32 (ret + p) else ret.

  (** small_prime_field_mont.h:45-48 PrimeField(uint32_t), 134-136 ToBigInt, 163-167 Add, 175-179 Sub,
      186-190 Negate, 198-202 Mul, 209-215 Inverse (Pow(modulus - 2)); square is x * x. *)
  Definition sfm_of (v : Z) : Z := to_mont32 v.
  Definition sfm_value (a : Z) : Z := from_mont a.
  Definition sfm_one : Z := to_mont32 1.
  Definition sfm_add := add_mod reduce_default.
  Definition sfm_sub := sub_mod reduce_default.
  Definition sfm_neg (a : Z) : Z := sub_mod reduce_default 0 a.
  Definition sfm_mul (a b : Z) : Z := from_mont (trunc 64 (a * b)).
  Definition sfm_inverse (a : Z) : option Z :=
    if a =? 0 then None
    else Some (do_pow sfm_one sfm_mul (fun x => sfm_mul x x) [trunc 32 (p - 2)] a).
  (** small_prime_field_mont.h:144-159 operator< and friends. *)
  Definition sfm_ltb (a b : Z) : bool := from_mont a <? from_mont b.

  (** small_prime_field.h (non-Montgomery): 155-157 Add, 166-168 Sub, 175-177 Negate, 187 Mul,
      204-225 Inverse. [reduce64] is the configured reduction of products. *)
  Definition sf_add := add_mod reduce_default.
  Definition sf_sub := sub_mod reduce_default.
  Definition sf_neg (a : Z) : Z := sub_mod reduce_default 0 a.
  Definition sf_mul (reduce64 : Z -> Z) (a b : Z) : Z := reduce64 (trunc 64 (a * b)).
  Inductive inv_result := Undefined | NoInverse | Inv (v : Z).
  Definition sf_inverse (a : Z) : inv_result :=
    if a =? 0 then NoInverse
    else match egcd a p with
         | None => Undefined
         | Some (s, _, r) =>
             if negb (r =? 1) then NoInverse
             else if 0 <? s then Inv (trunc 32 s) else Inv (trunc 32 (p + s))
         end.
End Config.

(** mersenne31/internal/BUILD.bazel:14: reduce64 of Mersenne31, kModulusBits = 31, kModulus = 2^31 - 1. *)
Definition mersenne31 : Z := 2147483647.
Definition mersenne31_reduce64 (v : Z) : Z :=
  Z.land (trunc 64 (Z.shiftr (trunc 64 (trunc 64 (Z.shiftr v 31 + v) + 1)) 31 + v)) mersenne31.
