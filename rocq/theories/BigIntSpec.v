(** Independent specification vocabulary for big integers: the value of a limb vector, and what it
    means for a list to be an N-limb vector. Nothing here mentions the model. *)
From Coq Require Import ZArith List.
Import ListNotations.
Open Scope Z_scope.

(** The integer denoted by little-endian [w]-bit limbs. *)
Fixpoint val (w : Z) (l : list Z) : Z :=
  match l with [] => 0 | x :: r => x + 2 ^ w * val w r end.

(** [l] consists of exactly [n] words of [w] bits. *)
Definition limbs (w : Z) (n : nat) (l : list Z) : Prop :=
  length l = n /\ Forall (fun x => 0 <= x < 2 ^ w) l.

(** Value of 64-bit limbs, the case used by BigInt. *)
Notation val64 := (val 64).
Notation limbs64 := (limbs 64).

(** Integer denoted by a sequence of bits / of bytes, least significant first. *)
Fixpoint bits_val (l : list bool) : Z :=
  match l with [] => 0 | b :: r => (if b then 1 else 0) + 2 * bits_val r end.
Definition bytes_val (l : list Z) : Z := val 8 l.

(** Signed-digit expansions. *)
Fixpoint digits_val (l : list Z) : Z :=
  match l with [] => 0 | d :: r => d + 2 * digits_val r end.
Fixpoint non_adjacent (l : list Z) : Prop :=
  match l with
  | d :: ((e :: _) as r) => (d = 0 \/ e = 0) /\ non_adjacent r
  | _ => True
  end.
