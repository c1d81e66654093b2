(** A group and a pairing for the examples: the field as a group over itself, with the product as pairing. *)
From Coq Require Import List Ring Field Field_theory.
From Verif Require Import Field GrothModel.

Section Self.
  Variable K : fld.
  Add Field Kg5 : (fld_theory K).
  Open Scope fld_scope.
  Definition self_group : group K.
  Proof. refine (mk_group K K 0 fadd fopp fmul _ _ _ _ _ _ _ _); intros; ring. Defined.
  Definition self_pairing : pairing self_group self_group self_group.
  Proof. refine (mk_pairing K self_group self_group self_group (fun u v : K => u * v) _ _ _ _ (fun u v : K => feqb u v) _); cbn; intros; try ring. apply feqb_eq. Defined.
End Self.
