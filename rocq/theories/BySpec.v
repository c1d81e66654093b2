(** Numbers in positional notation. *)
From Coq Require Import ZArith List.
Open Scope Z_scope.

(** The number whose digits in base 2^b are given, least significant first. *)
Definition digits (b : Z) (l : list Z) : Z := fold_right (fun d v => d + 2 ^ b * v) 0 l.
(** All digits are in range. *)
Definition in_base (b : Z) (l : list Z) : Prop := Forall (fun d => 0 <= d < 2 ^ b) l.
(** A list of n chunks of 62 bits that represents z in two's complement. *)
Definition represents (n : nat) (l : list Z) (z : Z) : Prop :=
  length l = n /\ in_base 62 l /\ digits 62 l = z mod 2 ^ (62 * Z.of_nat n).
(** The numbers that n chunks can tell apart. *)
Definition representable (n : nat) (z : Z) : Prop := - 2 ^ (62 * Z.of_nat n - 1) <= z < 2 ^ (62 * Z.of_nat n - 1).
