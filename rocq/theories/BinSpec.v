(** What a tower of binary fields is. The values of the field of level k are the numbers below 2^(2^k), addition is the exclusive or,
    and the generator X of a level satisfies X^2 = a X + 1, a being the generator of the level below. *)
From Coq Require Import NArith.
Open Scope N_scope.

Definition values (k : nat) (x : N) : Prop := x < 2 ^ (2 ^ N.of_nat k).
(** The generator of a level: 1 for the field of two elements, otherwise the number whose only non-zero half is a high half equal to 1. *)
Definition generator (k : nat) : N :=
  match k with O => 1 | S j => 2 ^ (2 ^ N.of_nat j) end.

(** A commutative field with the given operations on the given values, in which every element is its own opposite. *)
Record char2_field (V : N -> Prop) (add mul : N -> N -> N) : Prop := {
  f_zero : V 0;
  f_one : V 1;
  f_add : forall a b, V a -> V b -> V (add a b);
  f_mul : forall a b, V a -> V b -> V (mul a b);
  f_add_comm : forall a b, V a -> V b -> add a b = add b a;
  f_add_assoc : forall a b c, V a -> V b -> V c -> add a (add b c) = add (add a b) c;
  f_add_zero : forall a, V a -> add 0 a = a;
  f_add_self : forall a, V a -> add a a = 0;
  f_mul_comm : forall a b, V a -> V b -> mul a b = mul b a;
  f_mul_assoc : forall a b c, V a -> V b -> V c -> mul a (mul b c) = mul (mul a b) c;
  f_mul_one : forall a, V a -> mul 1 a = a;
  f_distr : forall a b c, V a -> V b -> V c -> mul (add a b) c = add (mul a c) (mul b c);
  f_inv : forall a, V a -> a <> 0 -> exists b, V b /\ mul a b = 1;
}.
