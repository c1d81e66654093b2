(** Property theorems C45, C80: polynomials in evaluation form. *)
From Coq Require Import ZArith List Bool Arith Lia.
From Verif Require Import Field Zp EvalsModel EvalsSpec EvalsProof.
Import ListNotations.
Open Scope fld_scope.
Local Ltac ands := cbv zeta; repeat match goal with |- _ /\ _ => split end.
Notation small md e := (Z.of_nat (length e) <= md + 1)%Z.

(** Addition and subtraction, pure and in place; mismatched sizes abort. *)
Theorem C45_add_sub : forall (K : fld) (md : Z) (a b : list K), (0 <= md)%Z -> small md a -> small md b ->
  (compatible a b -> result (ev_add md a b) md (fun i => ev_at a i + ev_at b i) /\ ev_add_in_place a b = ev_add md a b /\
                     result (ev_sub md a b) md (fun i => ev_at a i - ev_at b i) /\ ev_sub_in_place md a b = ev_sub md a b) /\
  (~ compatible a b -> ev_add md a b = None /\ ev_add_in_place a b = None /\ ev_sub md a b = None /\ ev_sub_in_place md a b = None).
Proof. exact add_ok. Qed.
Print Assumptions C45_add_sub.

Theorem C45_mul : forall (K : fld) (md : Z) (a b : list K), (0 <= md)%Z -> small md a -> small md b ->
  (compatible a b -> result (ev_mul md a b) md (fun i => ev_at a i * ev_at b i) /\ ev_mul_in_place a b = ev_mul md a b) /\
  (~ compatible a b -> ev_mul md a b = None /\ ev_mul_in_place a b = None).
Proof. exact mul_ok. Qed.
Print Assumptions C45_mul.

Theorem C45_scale_negate : forall (K : fld) (md : Z) (a : list K) (s : K), (0 <= md)%Z -> small md a ->
  result (ev_scale md a s) md (fun i => ev_at a i * s) /\ result (Some (ev_scale_in_place a s)) md (fun i => ev_at a i * s) /\
  result (ev_negate md a) md (fun i => - ev_at a i) /\ ev_negate md a = Some (ev_negate_in_place a).
Proof. exact scale_ok. Qed.
Print Assumptions C45_scale_negate.

Theorem C45_div : forall (K : fld) (md : Z) (a b : list K), (0 <= md)%Z -> small md a -> small md b ->
  (div_fails a b -> ev_div md a b = Some None /\ snd (ev_div_in_place a b) = false) /\
  (~ div_fails a b -> exists e, ev_div md a b = Some (Some e) /\ ev_div_in_place a b = (e, true) /\ length e = length a /\
     forall i, (i < length a)%nat -> ev_at e i = ev_at a i / ev_at b i).
Proof. exact div_ok. Qed.
Print Assumptions C45_div.

Theorem C45_div_scalar : forall (K : fld) (md : Z) (a : list K) (s : K), (0 <= md)%Z -> small md a ->
  (s = 0 -> ev_div_scalar md a s = Some None /\ ev_div_scalar_in_place a s = (a, false)) /\
  (s <> 0 -> exists e, ev_div_scalar md a s = Some (Some e) /\ (forall i, ev_at e i = ev_at a i / s) /\
     exists e', ev_div_scalar_in_place a s = (e', true) /\ forall i, ev_at e' i = ev_at a i / s).
Proof. exact div_scalar_ok. Qed.
Print Assumptions C45_div_scalar.

(** Equality of vectors over the same domain is equality of all values; IsZero and IsOne. *)
Theorem C45_equality : forall (K : fld) (a b : list K),
  (compatible a b -> (ev_eqb a b = true <-> forall i, ev_at a i = ev_at b i)) /\ (~ compatible a b -> ev_eqb a b = false) /\
  (ev_is_zero a = true <-> forall i, ev_at a i = 0) /\ (ev_is_one a = true <-> a <> [] /\ forall x, In x a -> x = 1).
Proof. intros K a b. exact (conj (eqb_iff K a b) (conj (eqb_incompatible K a b) (conj (is_zero_iff K a) (is_one_iff K a)))). Qed.
Print Assumptions C45_equality.
Notation g7 n := (mkz 7 (prime_check_sound 7 eq_refl) n : F7).
Example C45_nonvacuous :
  let run := option_map (map (zval 7)) in
  let a := [g7 1; g7 2; g7 3] in let b := [g7 6; g7 5; g7 1] in
  run (ev_add 10 a b) = Some [0; 0; 4]%Z /\ run (ev_sub 10 [] b) = Some [1; 2; 6]%Z /\ run (ev_mul 10 a b) = Some [6; 3; 3]%Z /\
  option_map run (ev_div 10 b a) = Some (Some [6; 6; 5]%Z) /\ option_map run (ev_div 10 b [g7 1; g7 0; g7 1]) = Some None /\
  run (ev_add 10 a [g7 1]) = None /\ compatible a b /\ ~ div_fails b a.
Proof.
  cbv zeta. do 6 (split; [vm_compute; reflexivity|]). split; [right; right; reflexivity|].
  intros [H|[_ [H|(i & Hi & H)]]]; [discriminate|apply H; reflexivity|]. destruct i as [|[|[|i]]]; [| | |cbn in Hi; lia]; apply (f_equal (zval 7)) in H; vm_compute in H; discriminate.
Qed.

(** Missing from the full property: transitivity through the empty vector (see the refutation). *)
Theorem C80_equality_partial : forall (K : fld) (a b c : list K),
  ev_eqb a a = true /\ ev_eqb a b = ev_eqb b a /\ (b <> [] -> ev_eqb a b = true -> ev_eqb b c = true -> ev_eqb a c = true).
Proof. exact eqb_equiv. Qed.
Print Assumptions C80_equality_partial.

(** [0] == [], [] == [0; 0], but [0] != [0; 0]: in every field. *)
Theorem C80_equality_refuted : forall K : fld, exists a b c : list K, ev_eqb a b = true /\ ev_eqb b c = true /\ ev_eqb a c = false.
Proof. intros K. exists [0], [], [0; 0]. unfold ev_eqb, ev_is_zero, vec_eqb, forallb. rewrite feqb_refl. repeat split. Qed.
Print Assumptions C80_equality_refuted.
Example C80_nonvacuous : ev_eqb [g7 0; g7 0] [] = true /\ ev_eqb [g7 1; g7 2] [g7 1; g7 2] = true /\ ev_eqb [g7 1; g7 2] [g7 1; g7 3] = false.
Proof. ands; vm_compute; reflexivity. Qed.
