(** Independent vocabulary: monoids and iterated products. *)
From Coq Require Import ZArith List.
Import ListNotations.

(** Associativity and a two-sided unit: all the code's Pow/ScalarMul algorithms rely on. *)
Record monoid {G : Type} (one : G) (mul : G -> G -> G) : Prop := {
  m_assoc : forall x y z, mul x (mul y z) = mul (mul x y) z;
  m_one_l : forall x, mul one x = x;
  m_one_r : forall x, mul x one = x
}.

(** The [n]-fold product of [g]. *)
Fixpoint times {G : Type} (one : G) (mul : G -> G -> G) (n : nat) (g : G) : G :=
  match n with O => one | S m => mul g (times one mul m g) end.
