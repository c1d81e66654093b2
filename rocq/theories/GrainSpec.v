(** Specification of the Grain generator of the Poseidon paper (supplementary material F), independent of GrainModel. *)
From Coq Require Import ZArith List Bool.
From Verif Require Import BigIntSpec GrainModel.
Import ListNotations.
Open Scope Z_scope.

(** b(i+80) = b(i+62) + b(i+51) + b(i+38) + b(i+23) + b(i+13) + b(i) over GF(2). *)
Definition grain (b : nat -> bool) : Prop := forall i : nat,
  b (i + 80)%nat = xorb (b (i + 62)%nat) (xorb (b (i + 51)%nat) (xorb (b (i + 38)%nat)
                   (xorb (b (i + 23)%nat) (xorb (b (i + 13)%nat) (b i))))).

(** [w] bits of [v] from the most significant one, at positions [start], [start] + 1, ... *)
Definition binary_at (b : nat -> bool) (start w : nat) (v : Z) : Prop :=
  forall j, (j < w)%nat -> b (start + j)%nat = Z.testbit v (Z.of_nat (w - 1 - j)).

(** The first 80 bits: field, S-box, n, t, R_F, R_P, ones. *)
Definition initial (c : config) (b : nat -> bool) : Prop :=
  b 0%nat = false /\ b 1%nat = true /\
  b 2%nat = false /\ b 3%nat = false /\ b 4%nat = false /\ b 5%nat = c_inverse c /\
  binary_at b 6 12 (c_prime_bits c) /\ binary_at b 18 12 (c_state_len c) /\
  binary_at b 30 10 (c_full c) /\ binary_at b 40 10 (c_partial c) /\
  forall i, (50 <= i < 80)%nat -> b i = true.

(** Evaluating bits in pairs from position [t]: a pair whose first bit is 1 contributes its second bit, another
    one contributes nothing. [selected b t l u]: the bits [l] are contributed before position [u], and the
    last pair before [u] contributed. *)
Inductive selected (b : nat -> bool) : nat -> list bool -> nat -> Prop :=
| sel_nil : forall t, selected b t [] t
| sel_take : forall t l u, b t = true -> selected b (t + 2) l u -> selected b t (b (t + 1)%nat :: l) u
| sel_skip : forall t l u, b t = false -> l <> [] -> selected b (t + 2) l u -> selected b t l u.

(** The integers formed by successive groups of [m] contributed bits, the first bit being the most significant. *)
Inductive integers (b : nat -> bool) (m : nat) : nat -> list Z -> nat -> Prop :=
| int_nil : forall t, integers b m t [] t
| int_cons : forall t l u vs w, length l = m -> selected b t l u -> integers b m u vs w ->
    integers b m t (bits_val (rev l) :: vs) w.

(** The integers that are accepted. *)
Definition in_field (f : field_params) (v : Z) : bool := (v <? f_modulus f)%Z.
