(** Model of tachyon/zk/plonk/permutation/unpermuted_table.h:54-79 and of GetDelta, permutation_utils.h:19-36. Only definitions.
    The first column is GetSuccessivePowers(rows, ω), univariate_evaluation_domain.h:239-241; the parallel loop writes each cell once, from the column before. *)
From Coq Require Import List Arith.
From Verif Require Import Field CycleModel.
Import ListNotations.

Section Table.
  Variable K : fld.
  Open Scope fld_scope.

  (** The loop over the columns, unpermuted_table.h:70-76. *)
  Fixpoint next_columns (delta : K) (col : list K) (n : nat) : list (list K) :=
    match n with O => [] | S n' => let col' := map (fun x => x * delta) col in col' :: next_columns delta col' n' end.
  (** UnpermutedTable::Construct. With no columns the table still has its first one. *)
  Definition unpermuted_table (delta omega : K) (cols rows : nat) : list (list K) :=
    let col := map (fun j => omega ^ j) (seq 0 rows) in
    col :: next_columns delta col (cols - 1).
  (** GetDelta for fields other than bn254::Fr: g^(2^s). *)
  Definition get_delta (g : K) (s : nat) : K := g ^ (2 ^ s)%nat.
End Table.
Arguments next_columns {K}. Arguments unpermuted_table {K}. Arguments get_delta {K}.
