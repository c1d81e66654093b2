(** Vocabulary for multi-scalar multiplication: commutative groups, integer multiples, sums, and what it means for the code's point types to
    compute in a group. *)
From Coq Require Import ZArith List Permutation.
From Verif Require Import BigIntSpec SemigroupSpec MSMModel.
Import ListNotations.

(** [mem] is the set of elements (for instance the points on the curve). *)
Record abelian_group {G : Type} (mem : G -> Prop) (zero : G) (add : G -> G -> G) (opp : G -> G) : Prop := {
  ag_zero : mem zero;
  ag_add : forall x y, mem x -> mem y -> mem (add x y);
  ag_opp : forall x, mem x -> mem (opp x);
  ag_assoc : forall x y z, mem x -> mem y -> mem z -> add x (add y z) = add (add x y) z;
  ag_comm : forall x y, mem x -> mem y -> add x y = add y x;
  ag_zero_l : forall x, mem x -> add zero x = x;
  ag_opp_r : forall x, mem x -> add x (opp x) = zero
}.

(** The integer multiple z * g. *)
Definition zmul {G : Type} (zero : G) (add : G -> G -> G) (opp : G -> G) (z : Z) (g : G) : G :=
  match z with
  | Z0 => zero
  | Zpos p => times zero add (Pos.to_nat p) g
  | Zneg p => opp (times zero add (Pos.to_nat p) g)
  end.

(** z_1 * g_1 + z_2 * g_2 + ... *)
Fixpoint msm {G : Type} (zero : G) (add : G -> G -> G) (opp : G -> G) (zs : list Z) (gs : list G) : G :=
  match zs, gs with
  | z :: zr, g :: gr => add (zmul zero add opp z g) (msm zero add opp zr gr)
  | _, _ => zero
  end.

(** The point types stand for group elements ([vp], [vb]) as long as they are well formed ([okp], [okb]), and the operations follow the group. *)
Record computes_in {G P B : Type} (mem : G -> Prop) (zero : G) (add : G -> G -> G) (opp : G -> G)
  (okp : P -> Prop) (vp : P -> G) (okb : B -> Prop) (vb : B -> G) (ops : bucket_ops P B) : Prop := {
  ci_mem_p : forall p, okp p -> mem (vp p);
  ci_mem_b : forall b, okb b -> mem (vb b);
  ci_zero : okb (b_zero ops) /\ vb (b_zero ops) = zero;
  ci_add : forall x y, okb x -> okb y -> okb (b_add ops x y) /\ vb (b_add ops x y) = add (vb x) (vb y);
  ci_add_in_place : forall x y, okb x -> okb y -> okb (b_add_in_place ops x y) /\ vb (b_add_in_place ops x y) = add (vb x) (vb y);
  ci_double : forall x, okb x -> okb (b_double_in_place ops x) /\ vb (b_double_in_place ops x) = add (vb x) (vb x);
  ci_madd : forall x p, okb x -> okp p -> okb (b_madd_in_place ops x p) /\ vb (b_madd_in_place ops x p) = add (vb x) (vp p);
  ci_neg : forall p, okp p -> okp (b_neg_point ops p) /\ vp (b_neg_point ops p) = opp (vp p)
}.

(** A scalar of the field: [n] limbs, below 2^modulus_bits (which bounds the modulus). *)
Definition scalar_ok (n modulus_bits : nat) (s : list Z) : Prop := limbs64 n s /\ (val64 s < 2 ^ Z.of_nat modulus_bits)%Z.

(** A schedule of an OpenMP loop of [n] iterations. *)
Definition schedule (n : nat) (order : list nat) : Prop := Permutation order (seq 0 n).
