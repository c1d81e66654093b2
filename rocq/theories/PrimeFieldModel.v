(** Model of tachyon/math/finite_fields/modulus.h and
    tachyon/math/finite_fields/prime_field_fallback.h (multi-limb prime fields in Montgomery form).
    The assembly back end (prime_field_x86_special etc.) is not modelled. *)
From Coq Require Import ZArith List Bool.
From Verif Require Import BigIntModel.
Import ListNotations.
Open Scope Z_scope.

(** modulus.h:24-34 CanUseNoCarryMulOptimization. *)
Definition can_use_no_carry (m : list Z) : bool :=
  match rev m with
  | [] => false
  | top :: rest =>
      let top_bit_is_zero := Z.shiftr top 63 =? 0 in
      let all_one := forallb (fun x => x =? 2 ^ 64 - 1) rest && (top =? Z.shiftr (2 ^ 64 - 1) 1) in
      top_bit_is_zero && negb all_one
  end.
(** modulus.h:40-43 HasSpareBit. *)
Definition has_spare_bit (m : list Z) : bool :=
  match rev m with [] => false | top :: _ => Z.shiftr top 63 =? 0 end.

(** modulus.h:45-50 MontgomeryR, 52-57 MontgomeryR2, 59-64 MontgomeryR3:
    2^(64 N k) % modulus computed with kN+1 limbs. *)
Definition montgomery_pow (k : nat) (m : list Z) : list Z :=
  let n := length m in
  bi_shrink n (bi_mod (repeat 0 (k * n) ++ [1]) (bi_extend (k * n + 1) m)).
Definition montgomery_r := montgomery_pow 1.
Definition montgomery_r2 := montgomery_pow 2.
Definition montgomery_r3 := montgomery_pow 3.

(** modulus.h:67-90 Inverse<T>: -M^-1 mod 2^B by B-1 square-and-multiply steps. *)
Definition inverse_step (w m0 inv : Z) : Z := trunc w (trunc w (inv * inv) * trunc w m0).
Definition modulus_inverse (w : Z) (m : list Z) : Z :=
  trunc w (- Nat.iter (Z.to_nat w - 1) (inverse_step w (hd 0 m)) 1).

(** The configuration constants (prime_field_config.h.tpl) a PrimeField instance reads. They are
    produced by prime_field_generator.cc from the functions above; [mk_config] does the same. *)
Record pf_config := {
  cfg_modulus : list Z;
  cfg_inverse64 : Z;
  cfg_r2 : list Z;
  cfg_one : list Z;
  cfg_spare : bool;
  cfg_nocarry : bool
}.
(** generator/prime_field_generator/prime_field_generator.cc:42-76 ModulusInfo::From. *)
Definition mk_config (m : list Z) : pf_config :=
  {| cfg_modulus := m;
     cfg_inverse64 := modulus_inverse 64 m;
     cfg_r2 := montgomery_r2 m;
     cfg_one := montgomery_r m;
     cfg_spare := has_spare_bit m;
     cfg_nocarry := can_use_no_carry m |}.

Section ops.
  Variable c : pf_config.
  Let m := cfg_modulus c.

  (** prime_field_fallback.h:198-215 Add / AddInPlace. *)
  Definition pf_add (a b : list Z) : list Z :=
    let '(r, carry) := bi_add_carry a b in
    bi_clamp (cfg_spare c) m r (negb (carry =? 0)).
  (** prime_field_fallback.h:217-233 DoubleImpl. *)
  Definition pf_double (a : list Z) : list Z :=
    let '(r, carry) := bi_mul_by_2 a in
    bi_clamp (cfg_spare c) m r (negb (carry =? 0)).
  (** prime_field_fallback.h:236-253 Sub / SubInPlace. *)
  Definition pf_sub (a b : list Z) : list Z :=
    if bi_gtb b a then bi_sub (bi_add a m) b else bi_sub a b.
  (** prime_field_fallback.h:255-271 Negate. *)
  Definition pf_neg (a : list Z) : list Z :=
    if bi_is_zero a then a else bi_sub m a.

  (** prime_field_fallback.h:331-355 DoFastMul: inner loop over j >= 1. [hi]/[hi2] are result.hi and
      result2.hi; produces r[0..N-2] and finally r[N-1] = result.hi + result2.hi (wrapping). *)
  Fixpoint fast_inner (bi k : Z) (a md r : list Z) (hi hi2 : Z) : list Z :=
    match a, md, r with
    | aj :: a', mj :: md', rj :: r' =>
        let '(lo, h) := mul_add_with_carry 64 rj aj bi hi in
        let '(lo2, h2) := mul_add_with_carry 64 lo k mj hi2 in
        lo2 :: fast_inner bi k a' md' r' h h2
    | _, _, _ => [trunc 64 (hi + hi2)]
    end.
  Definition fast_row (a r : list Z) (bi : Z) : list Z :=
    match a, m, r with
    | a0 :: a', m0 :: md', r0 :: r' =>
        let '(lo, hi) := mul_add_with_carry 64 r0 a0 bi 0 in
        let k := trunc 64 (lo * cfg_inverse64 c) in
        let '(_, hi2) := mul_add_with_carry 64 lo k m0 0 in
        fast_inner bi k a' md' r' hi hi2
    | _, _, _ => r
    end.
  Definition do_fast_mul (a b : list Z) : list Z :=
    bi_clamp (cfg_spare c) m (fold_left (fast_row a) b (map (fun _ => 0) a)) false.

  (** prime_field_fallback.h:357-362 DoSlowMul. *)
  Definition do_slow_mul (a b : list Z) : list Z :=
    bi_montgomery_reduce (cfg_spare c) (bi_mul_extend a b) m (cfg_inverse64 c).

  (** prime_field_fallback.h:273-290 Mul / MulInPlace. *)
  Definition pf_mul (a b : list Z) : list Z :=
    if cfg_nocarry c then do_fast_mul a b else do_slow_mul a b.

  (** prime_field_fallback.h:364-394 DoSquareImpl. *)
  (** 367-375: off-diagonal products; [r] is the window starting at index 2i+1. *)
  Fixpoint sq_off (a r : list Z) : list Z :=
    match a with
    | ai :: ((_ :: _) as a') =>
        match mul_row 64 ai a' r 0 with
        | x :: y :: rest => x :: y :: sq_off a' rest
        | l => l
        end
    | _ => r
    end.
  (** 377-381: doubling; r[2N-1] = r[2N-2]>>63, r[k] = (r[k]<<1)|(r[k-1]>>63), r[1] <<= 1. *)
  Fixpoint sq_double_tail (prev : Z) (r : list Z) : list Z :=
    match r with
    | [] => []
    | [_] => [Z.shiftr prev 63]
    | x :: r' => Z.lor (trunc 64 (Z.shiftl x 1)) (Z.shiftr prev 63) :: sq_double_tail x r'
    end.
  Definition sq_double (r : list Z) : list Z :=
    match r with
    | r0 :: r1 :: rest => r0 :: trunc 64 (Z.shiftl r1 1) :: sq_double_tail r1 rest
    | _ => r
    end.
  (** 383-391: diagonal products. *)
  Fixpoint sq_diag (a r : list Z) (carry : Z) : list Z :=
    match a, r with
    | ai :: a', x :: y :: r' =>
        let '(lo, hi) := mul_add_with_carry 64 x ai ai carry in
        let '(s, c2) := add_with_carry 64 y hi 0 in
        lo :: s :: sq_diag a' r' c2
    | _, _ => r
    end.
  Definition sq_wide (a : list Z) : list Z :=
    let z := repeat 0 (2 * length a) in
    let r1 := match z with z0 :: z' => z0 :: sq_off a z' | [] => [] end in
    sq_diag a (sq_double r1) 0.
  (** prime_field_fallback.h:292-306 SquareImpl: N == 1 falls back to Mul. *)
  Definition pf_square (a : list Z) : list Z :=
    if (length a =? 1)%nat then pf_mul a a
    else bi_montgomery_reduce (cfg_spare c) (sq_wide a) m (cfg_inverse64 c).

  (** prime_field_fallback.h:56-61 constructor from BigInt: multiply by R^2. *)
  Definition pf_of_bigint (v : list Z) : list Z := pf_mul v (cfg_r2 c).
  (** prime_field_fallback.h:163-166 ToBigInt. *)
  Definition pf_to_bigint (a : list Z) : list Z := bi_from_montgomery 64 a m (cfg_inverse64 c).
  (** prime_field_fallback.h:168-186 comparisons go through ToBigInt. *)
  Definition pf_ltb (a b : list Z) : bool := bi_ltb (pf_to_bigint a) (pf_to_bigint b).
  Definition pf_eqb (a b : list Z) : bool := bi_eqb a b.
  (** prime_field_fallback.h:129-143 IsZero / IsOne. *)
  Definition pf_is_zero (a : list Z) : bool := bi_is_zero a.
  Definition pf_is_one (a : list Z) : bool := bi_eqb a (cfg_one c).
End ops.
