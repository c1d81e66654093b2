(** Property theorems C217-C220: the encoding of a curve point in a proof.
    PointSerSpec.v defines [curve_point] (infinity, represented as (0, 0), or a point of the curve), [flag_bits] (1 legacy, 2 otherwise) and [square_root];
    [n] is the number of 64-bit limbs of the base field. *)
From Coq Require Import ZArith Znumtheory List Bool Arith Lia.
From Verif Require Import Field Zp SqrtModel SqrtSpec PointSerModel PointSerSpec PointSerProof SqrtExtra.
Import ListNotations.
Open Scope fld_scope.

(** ReadFromProof returns the point that WriteToProof wrote, if the modulus leaves room for the flags; in the legacy format the points other than
    infinity must not have x = 0. *)
Theorem C217_point_roundtrip : forall (p : Z) (Hp : prime p) (n : nat) (sqrt : Zp p Hp -> option (Zp p Hp)) (a_is_zero : bool) (ca cb : Zp p Hp) (legacy : bool) (x y : Zp p Hp),
  (2 < p)%Z -> (0 < n)%nat -> square_root sqrt -> (a_is_zero = true -> ca = 0) ->
  (p <= 2 ^ (64 * Z.of_nat n - flag_bits legacy))%Z -> curve_point ca cb x y -> (legacy = true -> x = 0 -> y = 0) ->
  read_point p Hp n sqrt a_is_zero ca cb legacy (write_point p Hp n legacy x y) = Some (x, y).
Proof. exact (fun p Hp n sqrt az ca cb legacy x y H2 Hn HS Haz => roundtrip_point p Hp H2 n Hn sqrt az ca cb HS Haz legacy x y). Qed.
Print Assumptions C217_point_roundtrip.

Example C217_nonvacuous : square_root (K := F7) (shanks [2%Z]) /\ on_curve (K := F7) 0 (m7 3) (m7 1) (m7 5) /\
  write_point 7 (prime_check_sound 7 eq_refl) 1 true (m7 1) (m7 5) = [1; 0; 0; 0; 0; 0; 0; 128]%Z /\
  write_point 7 (prime_check_sound 7 eq_refl) 1 false (m7 1) (m7 5) = [1; 0; 0; 0; 0; 0; 0; 64]%Z /\
  write_point 7 (prime_check_sound 7 eq_refl) 1 false (m7 0) (m7 0) = [0; 0; 0; 0; 0; 0; 0; 128]%Z /\
  option_map (fun xy => (zval 7 (fst xy), zval 7 (snd xy))) (read_point 7 (prime_check_sound 7 eq_refl) 1 (shanks [2%Z]) true (m7 0) (m7 3) true [1; 0; 0; 0; 0; 0; 0; 128]%Z) = Some (1, 5)%Z.
Proof. split; [exact sqrt7|]. split; [apply zp_eq; vm_compute; reflexivity|]. repeat split; vm_compute; reflexivity. Qed.

(** Legacy format: every finite point with x = 0 is read back as the point at infinity. *)
Theorem C218_legacy_zero_x_refuted : forall (p : Z) (Hp : prime p) (n : nat) (sqrt : Zp p Hp -> option (Zp p Hp)) (a_is_zero : bool) (ca cb y : Zp p Hp),
  (2 < p)%Z -> (0 < n)%nat -> (p <= 2 ^ (64 * Z.of_nat n - 1))%Z -> y <> 0 ->
  read_point p Hp n sqrt a_is_zero ca cb true (write_point p Hp n true (0 : Zp p Hp) y) = Some ((0 : Zp p Hp), (0 : Zp p Hp)).
Proof. exact (fun p Hp n sqrt az ca cb y H2 Hn => legacy_zero p Hp H2 n Hn sqrt az ca cb y). Qed.
Print Assumptions C218_legacy_zero_x_refuted.

Example C218_nonvacuous : on_curve (K := F7) 0 (m7 2) (m7 0) (m7 3) /\ zval 7 (m7 3) = 3%Z.
Proof. split; [apply zp_eq; vm_compute; reflexivity|reflexivity]. Qed.

(** A point has a second encoding whenever x + p fits next to the flags (254-bit moduli in 256 bits, legacy format): the reader does not reject values above the modulus. *)
Theorem C219_second_encoding_refuted : forall (p : Z) (Hp : prime p) (n : nat) (sqrt : Zp p Hp -> option (Zp p Hp)) (a_is_zero : bool) (ca cb : Zp p Hp) (legacy : bool) (x y : Zp p Hp),
  (2 < p)%Z -> (0 < n)%nat -> square_root sqrt -> (a_is_zero = true -> ca = 0) ->
  (zval p x + p < 2 ^ (64 * Z.of_nat n - flag_bits legacy))%Z -> on_curve ca cb x y -> (x = 0 -> legacy = false) ->
  exists bytes, bytes <> write_point p Hp n legacy x y /\ length bytes = (8 * n)%nat /\ read_point p Hp n sqrt a_is_zero ca cb legacy bytes = Some (x, y).
Proof. exact (fun p Hp n sqrt az ca cb legacy x y H2 Hn HS Haz => second_encoding p Hp H2 n Hn sqrt az ca cb HS Haz legacy x y). Qed.
Print Assumptions C219_second_encoding_refuted.

(** In the new format the infinity flag of a finite point is ignored, which gives another encoding of every finite point with x <> 0. *)
Theorem C219_ignored_flag_refuted : forall (p : Z) (Hp : prime p) (n : nat) (sqrt : Zp p Hp -> option (Zp p Hp)) (a_is_zero : bool) (ca cb x y : Zp p Hp),
  (2 < p)%Z -> (0 < n)%nat -> square_root sqrt -> (a_is_zero = true -> ca = 0) -> (p <= 2 ^ (64 * Z.of_nat n - 2))%Z -> on_curve ca cb x y -> x <> 0 ->
  set_last (fun b => Z.lor b 128) (write_point p Hp n false x y) <> write_point p Hp n false x y /\
  read_point p Hp n sqrt a_is_zero ca cb false (set_last (fun b => Z.lor b 128) (write_point p Hp n false x y)) = Some (x, y).
Proof. exact (fun p Hp n sqrt az ca cb x y H2 Hn HS Haz => ignored_flag p Hp H2 n Hn sqrt az ca cb HS Haz x y). Qed.
Print Assumptions C219_ignored_flag_refuted.

Example C219_nonvacuous :
  map (fun b => option_map (fun xy => (zval 7 (fst xy), zval 7 (snd xy))) (read_point 7 (prime_check_sound 7 eq_refl) 1 (shanks [2%Z]) true (m7 0) (m7 3) false b))
    [[1; 0; 0; 0; 0; 0; 0; 64]; [8; 0; 0; 0; 0; 0; 0; 64]; [1; 0; 0; 0; 0; 0; 0; 192]]%Z = [Some (1, 5); Some (1, 5); Some (1, 5)]%Z.
Proof. vm_compute. reflexivity. Qed.

(** CheckBits is sound for the legacy format: it only accepts moduli that leave a free bit. *)
Theorem C220_check_bits_legacy : forall (p : Z) (n : nat), (0 < p < 2 ^ (64 * Z.of_nat n))%Z -> check_bits true (Z.log2 p + 1) = true -> (p < 2 ^ (64 * Z.of_nat n - 1))%Z.
Proof. exact spare_legacy. Qed.
Print Assumptions C220_check_bits_legacy.

(** In the new format it accepts moduli with one free bit (255-bit fields in 256 bits), for which points do not round trip. *)
Theorem C220_check_bits_refuted : exists (p : Z) (Hp : prime p) (n : nat) (cb x y : Zp p Hp),
  (2 < p < 2 ^ (64 * Z.of_nat n))%Z /\ (0 < n)%nat /\ check_bits false (Z.log2 p + 1) = true /\ on_curve 0 cb x y /\
  forall sqrt, read_point p Hp n sqrt true (0 : Zp p Hp) cb false (write_point p Hp n false x y) <> Some (x, y).
Proof. exact check_bits_wrong. Qed.
Print Assumptions C220_check_bits_refuted.

(** And it rejects moduli with more than enough room. *)
Theorem C220_check_bits_rejects_refuted : exists (p : Z) (n : nat), prime p /\ (2 < p <= 2 ^ (64 * Z.of_nat n - 2))%Z /\ (0 < n)%nat /\ check_bits false (Z.log2 p + 1) = false.
Proof. exact check_bits_refuses. Qed.
Print Assumptions C220_check_bits_rejects_refuted.
