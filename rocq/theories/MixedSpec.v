(** Vocabulary for the mixed-radix theorems. *)
From Coq Require Import ZArith List.
From Verif Require Import Field FFTModel.
Open Scope fld_scope.

(** [d] describes the coset h, h g, ..., h g^(n-1) of the subgroup of size n, where 2^k is the largest power of two that divides n. *)
Record domain_on {K : fld} (n k : nat) (g h : K) (d : domain K) : Prop := {
  on_size : d_size d = n; on_log : d_log d = k; on_gen : d_gen d = g; on_gen_inv : d_gen_inv d = finv g;
  on_off : d_off d = h; on_off_inv : d_off_inv d = finv h; on_size_inv : d_size_inv d = finv (fnat n) }.
