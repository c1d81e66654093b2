(** Model of math/finite_fields/square_root_algorithms/{shanks,tonelli_shanks}.h, of SquareRoot in finite_field.h, of Legendre,
    Decompose and GetRootOfUnity in prime_field_base.h, of the constants that prime_field_generator.cc computes for them, and of
    GetYsFromX/GetPointFromX in elliptic_curves/short_weierstrass/sw_curve.h. Only definitions.
    A C++ loop without a bound takes a [fuel]; the outer [None] says that it has not ended within [fuel] rounds.
    Simplifications: the configuration constants are arguments; an exponent constant is the list of 64-bit limbs of its BigInt;
    k, v and the adicities are nat (size_t counters that stay far below 2^64). *)
From Coq Require Import ZArith List Bool.
From Verif Require Import Field Zp BigIntModel SemigroupModel MixedModel.
Import ListNotations.
Open Scope fld_scope.

Section Sqrt.
  Context {K : fld}.
  Notation pow e x := (do_pow (1 : K) fmul (fun y => y * y) e x).
  Notation square := (fun y : K => y * y).

  (** shanks.h:13-27 ComputeShanksSquareRoot: [e] is kModulusPlusOneDivFour. *)
  Definition shanks (e : list Z) (a : K) : option K :=
    let r := pow e a in
    if feqb (r * r) a then Some r else None.

  (** tonelli_shanks.h:50-57: the least k with b^(2^k) = 1. *)
  Fixpoint order_log (fuel : nat) (b2k : K) (k : nat) : option nat :=
    if feqb b2k 1 then Some k
    else match fuel with O => None | S f => order_log f (b2k * b2k) (S k) end.

  (** tonelli_shanks.h:46-101: the do-while loop. [Some None] is "return false" at 59-63, [Some (Some x)] leaves the loop with x. *)
  Fixpoint ts_loop (fuel adicity : nat) (z x b : K) (v : nat) : option (option K) :=
    match fuel with
    | O => None
    | S f =>
        match order_log fuel b 0 with
        | None => None
        | Some k =>
            if (k =? adicity)%nat then Some None
            else let j := (v - k)%nat in
                 let w := Nat.iter (j - 1) square z in
                 let z' := w * w in
                 let b' := b * z' in
                 let x' := x * w in
                 if feqb b' 1 then Some (Some x') else ts_loop f adicity z' x' b' k
        end
    end.

  (** tonelli_shanks.h:14-109 ComputeTonelliShanksSquareRoot: [adicity] is kTwoAdicity, [e] kTraceMinusOneDivTwo and [root]
      the argument quadratic_non_residue_to_trace. *)
  Definition tonelli_shanks (fuel adicity : nat) (e : list Z) (root a : K) : option (option K) :=
    if feqb a 0 then Some (Some 0)
    else let w := pow e a in
         let x := w * a in
         let b := x * w in
         match (if feqb b 1 then Some (Some x) else ts_loop fuel adicity root x b adicity) with
         | None => None
         | Some None => Some None
         | Some (Some x) => if feqb (x * x) a then Some (Some x) else Some None
         end.

  (** prime_field_base.h:135-144 Legendre: [e] is kModulusMinusOneDivTwo; kZero, kOne, kMinusOne are 0, 1, -1. *)
  Definition legendre (e : list Z) (a : K) : Z :=
    let s := pow e a in
    if feqb s 0 then 0%Z else if feqb s 1 then 1%Z else (-1)%Z.

  (** sw_curve.h:70-87 GetYsFromX: (even_y, odd_y); [sqrt] is SquareRoot, [is_even y] is y.ToBigInt().IsEven(), [a_is_zero] is
      kAIsZero, [ca] and [cb] are kA and kB. *)
  Definition get_ys (sqrt : K -> option K) (is_even : K -> bool) (a_is_zero : bool) (ca cb x : K) : option (K * K) :=
    let right := x * x * x + cb in
    let right := if a_is_zero then right else right + ca * x in
    match sqrt right with
    | None => None
    | Some y => if is_even y then Some (y, - y) else Some (- y, y)
    end.
  (** sw_curve.h:52-65 GetPointFromX, affine_point.h:62-67 CreateFromX. *)
  Definition create_from_x (sqrt : K -> option K) (is_even : K -> bool) (a_is_zero : bool) (ca cb x : K) (pick_odd : bool) : option (K * K) :=
    match get_ys sqrt is_even a_is_zero ca cb x with
    | None => None
    | Some (even_y, odd_y) => Some (x, if pick_odd then odd_y else even_y)
    end.

  (** prime_field_base.h:61-79 Decompose: (q_adicity, two_adicity). std::pow on doubles is exact here: it is taken to be the integer power.
      The product q_part * two_part wraps at 2^64. n = 0: both adicities are 0, the parts are 1. *)
  Definition decompose (q n : Z) : option (Z * Z) :=
    let q_adicity := compute_adicity q n in
    let two_adicity := compute_adicity 2 n in
    if (n =? trunc 64 (q ^ q_adicity * 2 ^ two_adicity))%Z then Some (q_adicity, two_adicity) else None.

  (** prime_field_base.h:91-114 GetRootOfUnity for fields with a large subgroup root: [omega] is what 101-105 make of
      kLargeSubgroupRootOfUnity, [a] is kSmallSubgroupAdicity. *)
  Definition get_root_large (two_adicity : nat) (q : Z) (a : nat) (omega : K) (n : Z) : option K :=
    match decompose q n with
    | None => None
    | Some (qa, ta) =>
        if (Z.of_nat two_adicity <? ta)%Z || (Z.of_nat a <? qa)%Z then None
        else let omega := Nat.iter (a - Z.to_nat qa) (fun x => pow [q] x) omega in
             Some (Nat.iter (two_adicity - Z.to_nat ta) square omega)
    end.
End Sqrt.

Open Scope Z_scope.

(** prime_field_generator.cc: what is computed from the modulus [m], the subgroup generator [g] and the small subgroup (b, a).
    mpz_powm is the power modulo m; mpz division truncates towards zero. *)
(** :197-200 kTraceMinusOneDivTwo; :286-287 kTwoAdicity. *)
Definition gen_trace_minus_one_div_two (m : Z) : Z := Z.quot (compute_trace 2 (m - 1) - 1) 2.
Definition gen_two_adicity (m : Z) : Z := compute_adicity 2 (m - 1).
(** :282-285 two_adic_root_of_unity, before it is converted. *)
Definition gen_two_adic_root (m g : Z) : Z := (g ^ compute_trace 2 (m - 1)) mod m.
(** :303-319 large_subgroup_root_of_unity, before it is converted (mpz_div is the floor division). *)
Definition gen_large_root (m g b a : Z) : Z := (g ^ (compute_trace 2 (m - 1) / (b ^ a mod m))) mod m.
(** generator_util.cc MpzClassToMontString, which 272-273, 288-289 and 324-325 apply whether or not the field is a Montgomery field:
    [bits] is the size of the limbs. *)
Definition to_mont (bits m x : Z) : Z := (x * 2 ^ bits) mod m.
(** :188-191 kModulusMinusOneDivTwo, kModulusPlusOneDivFour. *)
Definition gen_modulus_minus_one_div_two (m : Z) : Z := Z.quot (m - 1) 2.
Definition gen_modulus_plus_one_div_four (m : Z) : Z := Z.quot (m + 1) 4.
