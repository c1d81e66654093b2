(** Properties of the binary fields. *)
From Coq Require Import NArith List.
From Verif Require Import BinModel BinSpec BinProof BinProof2 BinProof3 BinExtra.
Open Scope N_scope.

(** C236: the values of every binary field, with its addition and its multiplication, form a field. *)
Theorem C236_binary_fields_are_fields (k : nat) : char2_field (values k) b_add (b_mul k).
Proof. exact (field_at k). Qed.
Print Assumptions C236_binary_fields_are_fields.
Example C236_nonvacuous :
  values 4 4660 /\ values 4 48879 /\ b_mul 3 19 67 = 102 /\ b_mul 4 4660 48879 = b_mul 4 48879 4660 /\
  b_mul 4 4660 48879 <> 0.
Proof. repeat split; vm_compute; congruence. Qed.

(** C237: Square is the product with itself, MulByAlpha the product with the generator, and Inverse fails on zero only and otherwise
    returns the one element whose product with the argument is 1. *)
Theorem C237_square_alpha_inverse (k : nat) (a : N) : values k a ->
  b_square k a = b_mul k a a /\ b_alpha k a = b_mul k (generator k) a /\
  match b_inverse k a with
  | None => a = 0
  | Some b => a <> 0 /\ values k b /\ b_mul k a b = 1 /\ (forall c, values k c -> b_mul k a c = 1 -> c = b)
  end.
Proof. exact (ops_at k a). Qed.
Print Assumptions C237_square_alpha_inverse.
Example C237_nonvacuous : values 4 4660 /\ b_inverse 4 4660 <> None /\ b_inverse 4 0 = None /\ b_alpha 4 1 = 256.
Proof. repeat split; vm_compute; congruence. Qed.

(** C238: each field contains the field of half its width, generated over it by an X with X^2 = a X + 1, a being the generator of the
    half-width field; an element is lo + hi X for the halves of its value, which Decompose and Compose convert. *)
Theorem C238_tower_subfields (k : nat) :
  (forall a b, values k a -> values k b -> b_mul (S k) a b = b_mul k a b) /\
  b_mul (S k) (generator (S k)) (generator (S k)) = b_add (b_mul (S k) (generator k) (generator (S k))) 1.
Proof. exact (conj (sub_at k) (generator_eq k)). Qed.
Print Assumptions C238_tower_subfields.
Theorem C238_halves (k : nat) (x : N) : values (S k) x ->
  values k (b_lo k x) /\ values k (b_hi k x) /\ b_compose k (b_lo k x) (b_hi k x) = x /\
  x = b_add (b_lo k x) (b_mul (S k) (b_hi k x) (generator (S k))).
Proof. exact (split_at k x). Qed.
Print Assumptions C238_halves.
Theorem C238_compose (k : nat) (lo hi : N) : values k lo -> values k hi ->
  values (S k) (b_compose k lo hi) /\ b_lo k (b_compose k lo hi) = lo /\ b_hi k (b_compose k lo hi) = hi.
Proof. exact (join_at k lo hi). Qed.
Print Assumptions C238_compose.
Example C238_nonvacuous : values 4 4660 /\ b_lo 3 4660 = 52 /\ b_hi 3 4660 = 18 /\ generator 4 = 256.
Proof. repeat split; vm_compute; congruence. Qed.

(** C239: no element is an inverse of two, since 1 + 1 = 0; TwoInv nevertheless returns one, at every width above one bit. *)
Theorem C239_no_inverse_of_two (k : nat) (t : N) : values k t -> b_mul k (b_add 1 1) t <> 1.
Proof. exact (no_half k t). Qed.
Print Assumptions C239_no_inverse_of_two.
Theorem C239_two_inv_refuted (k : nat) :
  exists t, b_two_inv (S k) = Some t /\ values (S k) t /\ b_mul (S k) (b_add 1 1) t <> 1.
Proof. exact (two_inv_at k). Qed.
Print Assumptions C239_two_inv_refuted.
Example C239_nonvacuous : b_two_inv 3 = Some 3 /\ b_mul 3 2 3 = 1 /\ b_double 1 = b_add 1 1.
Proof. repeat split; vm_compute; congruence. Qed.
