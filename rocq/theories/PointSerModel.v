(** Model of zk/plonk/halo2/proof_serializer.h for affine points over a prime field. Only definitions.
    The buffer is the list of the kByteSize bytes written or read (base::Buffer itself is modelled in BufferModel). [n] is kLimbNums. *)
From Coq Require Import ZArith Znumtheory List Bool.
From Verif Require Import Field Zp BigIntModel BigIntSpec SqrtModel.
Import ListNotations.
Open Scope Z_scope.

(** The BigInt<n> that holds [v]: ToBigInt() of a field element with canonical value [v] (prime_field_fallback.h:165-170). *)
Definition limbs_of (n : nat) (v : Z) : list Z := map (fun i => (v / 2 ^ (64 * Z.of_nat i)) mod 2 ^ 64) (seq 0 n).

(** bytes[kByteSize - 1] = f(bytes[kByteSize - 1]). *)
Definition set_last (f : Z -> Z) (bytes : list Z) : list Z := removelast bytes ++ [f (last bytes 0)].

(** proof_serializer.h:47-50 CheckBits; [modulus_bits] is kModulusBits. *)
Definition check_bits (legacy : bool) (modulus_bits : Z) : bool :=
  let bits_needed := if legacy then 1 else 2 in
  bits_needed <=? modulus_bits mod 8.

Section Ser.
  Variables (p : Z) (Hp : prime p) (n : nat).
  Let F : fld := Zp p Hp.

  (** proof_serializer.h:84-103 WriteToProof; IsZero() (affine_point.h:125) is x = 0 and y = 0. *)
  Definition write_point (legacy : bool) (x y : F) : list Z :=
    if feqb x f0 && feqb y f0 then
      let zero_bytes := repeat 0 (8 * n) in
      if legacy then zero_bytes else set_last (fun b => Z.lor b 128) zero_bytes
    else
      let bits := if legacy then 7 else 6 in
      let is_odd := trunc 8 (Z.shiftl (if bi_is_odd (limbs_of n (zval p y)) then 1 else 0) bits) in
      set_last (fun b => trunc 8 (Z.lor b is_odd)) (bi_to_bytes_le (limbs_of n (zval p x))).

  (** proof_serializer.h:52-82 ReadFromProof: [sqrt], [a_is_zero], [ca], [cb] as in CreateFromX. FromBigInt (prime_field_fallback.h:111-113)
      multiplies by R^2 / R and so reduces the value modulo p (its DCHECK is not compiled in release builds). [None] is "return false". *)
  Definition read_point (sqrt : F -> option F) (a_is_zero : bool) (ca cb : F) (legacy : bool) (buffer : list Z) : option (F * F) :=
    if (length buffer <? 8 * n)%nat then None
    else
      let bytes := firstn (8 * n) buffer in
      let b := last bytes 0 in
      let is_inf := negb (Z.shiftr b 7 =? 0) in
      let is_odd := if legacy then negb (Z.shiftr b 7 =? 0) else negb (Z.land (Z.shiftr b 6) 1 =? 0) in
      let bytes := set_last (fun b => Z.land b (if legacy then 127 else 63)) bytes in
      match bi_from_bytes_le n bytes with
      | None => None (* not reached: kByteSize bytes fit *)
      | Some v =>
          let x := mkz p Hp (val64 v) : F in
          if feqb x f0 && (legacy || is_inf) then Some (f0, f0)
          else create_from_x sqrt (fun y => bi_is_even (limbs_of n (zval p y))) a_is_zero ca cb x is_odd
      end.
End Ser.
