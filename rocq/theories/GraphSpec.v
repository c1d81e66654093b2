(** What evaluating a compiled graph must return. *)
From Coq Require Import ZArith List.
From Verif Require Import Field ExprModel ExprSpec GraphModel.
Import ListNotations.

Section Spec.
  Variable K : fld.
  Open Scope fld_scope.
  (** Horner compression by theta of the values of some expressions: e_0 theta^(k-1) + ... + e_(k-1). *)
  Definition compressed (v : leaves K) (theta : K) (es : list (expr K)) : K := fold_left (fun a e => a * theta + value v e) es 0.
  (** At every row, with every challenge and previous value, and whatever an earlier row left in the intermediates, the graph evaluates to [val]; the intermediates keep their length, so that the next row can reuse them. *)
  Definition evaluates_to (t : table K) (n : nat) (G : graph K) (val : leaves K -> K -> K -> K -> K -> K -> K) : Prop :=
    forall idx theta beta gamma y prev inters, idx < n -> length inters = num_intermediates G ->
      exists inters', length inters' = num_intermediates G /\
        evaluate G {| in_table_ := t; in_n := Z.of_nat n; in_theta := theta; in_beta := beta; in_gamma := gamma; in_y := y; in_previous := prev |} (Z.of_nat idx) 1 inters =
          Some (val (row_leaves t n idx) theta beta gamma y prev, inters').
End Spec.
Arguments compressed {K}. Arguments evaluates_to {K}.
