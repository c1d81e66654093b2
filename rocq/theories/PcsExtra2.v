(** The field Merkle tree commitment scheme of FieldMerkleModel.v in the place of the two commitment schemes of PcsModel.v. *)
From Coq Require Import ZArith List Bool Lia Arith.
From Verif Require Import Field BatchSpec FieldMerkleSpec FieldMerkleModel FieldMerkleProof FieldMerkleProof2 FieldMerkleProof3 FieldMerkleExtra FriSpec PcsModel PcsTreeModel PcsSpec.
Import ListNotations.
Open Scope nat_scope.

Section Merkle.
  Variable K : fld.
  Context {P D : Type}.
  Variables (coords : K -> list P) (hash : list P -> D) (compress : D -> D -> D) (zero : D) (digest_eqb : D -> D -> bool).
  Notation matrix := (list (list K)).
  Hypothesis digest_refl : forall d, digest_eqb d d = true.
  Lemma is_log_unique e e' n : is_log e n -> is_log e' n -> e = e'.
  Proof using Type. clear. intros [A B] [A' B']. apply Nat.le_antisymm; [apply B; exact A'|apply B'; exact A]. Qed.
  Lemma tree_round ms i : ms <> [] -> Forall (fun m => exists j, length m = 2 ^ j) ms -> i < tallest ms ->
    exists root layers pf, mmcs_commit coords hash compress zero ms = Some (root, layers) /\
      mmcs_open i ms layers = Some (map (fun m => nth (Nat.div i (Nat.div (tallest ms) (length m))) m []) ms, pf) /\
      mmcs_verify coords hash compress digest_eqb root (map (@length _) ms) i (map (fun m => nth (Nat.div i (Nat.div (tallest ms) (length m))) m []) ms) pf = Some true.
  Proof using digest_refl.
    intros Hne HF Hi. rewrite Forall_forall in HF. destruct (pow2_addressable ms i Hne HF Hi) as (HA & HR).
    destruct (round_trip coords hash compress zero digest_eqb digest_refl ms i HA HR) as (root & layers & op & pf & E1 & E2 & E3 & E4 & E5).
    assert (EM : exists J, tallest ms = 2 ^ J).
    { unfold tallest. clear - HF Hne. assert (HM : forall l : list nat, l <> [] -> In (list_max l) l).
      { induction l as [|a l IH]; [congruence|]. intros _. destruct l as [|b l]; [left; cbn; lia|]. specialize (IH ltac:(congruence)). change (list_max (a :: b :: l)) with (Nat.max a (list_max (b :: l))).
        destruct (Nat.max_spec a (list_max (b :: l))) as [[_ ->]|[_ ->]]; [right; exact IH|left; reflexivity]. }
      specialize (HM (map (@length _) ms)). destruct ms as [|m ms]; [congruence|]. specialize (HM ltac:(discriminate)). apply in_map_iff in HM. destruct HM as (m' & <- & Hm').
      apply HF, Hm'. }
    destruct EM as [J EJ].
    assert (EO : op = map (fun m => nth (Nat.div i (Nat.div (tallest ms) (length m))) m []) ms).
    { apply nth_ext with (d := []) (d' := []); [rewrite map_length; exact E3|]. intros t Ht.
      destruct (nth_error ms t) as [m|] eqn:Em; [|apply nth_error_None in Em; lia].
      assert (Hm : In m ms) by (eapply nth_error_In; exact Em). destruct (HF m Hm) as [j Ej].
      assert (HjJ : 2 ^ j <= 2 ^ J).
      { rewrite <- EJ, <- Ej. unfold tallest. pose proof (proj1 (list_max_le (map (@length _) ms) _) (le_n _)) as HL. rewrite Forall_forall in HL. apply HL, in_map, Hm. }
      apply Nat.pow_le_mono_r_iff in HjJ; [|lia].
      assert (ER : addressed_row (list_max (map (@length _) ms)) (length m) i (Nat.div i (Nat.div (tallest ms) (length m)))).
      { exists J, j. split; [fold (tallest ms); rewrite EJ; apply is_log_pow2|]. split; [rewrite Ej; apply is_log_pow2|]. f_equal. rewrite EJ, Ej.
        replace J with ((J - j) + j) at 1 by lia. rewrite Nat.pow_add_r. apply Nat.div_mul. apply Nat.pow_nonzero. lia. }
      pose proof (E4 t m _ Em ER) as EE. pose proof (HR m _ Hm ER) as HB.
      rewrite (nth_error_nth' m [] HB) in EE. rewrite (nth_error_nth _ _ _ EE).
      symmetry. apply nth_error_nth. rewrite nth_error_map, Em. reflexivity. }
    exists root, layers, pf. rewrite <- EO. split; [exact E1|]. split; assumption.
  Qed.
  Lemma tree_complete : complete_input (tree_commit coords hash compress zero) tree_matrices tree_open (tree_verify coords hash compress digest_eqb).
  Proof using digest_refl.
    intros ms Hne HF.
    assert (HP : Forall (fun m => exists j, length m = 2 ^ j) ms). { eapply Forall_impl; [|exact HF]. cbv beta. intros m (j & c & _ & _ & H). exists j. apply H. }
    assert (HT : 0 < tallest ms).
    { destruct ms as [|m ms]; [congruence|]. apply Forall_cons_iff in HP. destruct HP as [[j Hj] _]. unfold tallest. cbn [map list_max fold_right].
      assert (0 < 2 ^ j) by (pose proof (Nat.pow_nonzero 2 j); lia). change (0 < Nat.max (length m) (list_max (map (@length _) ms))). lia. }
    destruct (tree_round ms 0 Hne HP HT) as (root & layers & _ & E1 & _). exists root, (ms, layers). unfold tree_commit. rewrite E1. split; [reflexivity|]. split; [reflexivity|].
    intros i Hi. destruct (tree_round ms i Hne HP Hi) as (root' & layers' & pf & E1' & E2' & E3'). rewrite E1 in E1'. injection E1' as <- <-. exists pf. cbv zeta.
    split; [exact E2'|]. unfold tree_verify. rewrite map_map. cbn [snd]. change (map (@length (list K)) ms) with (map (fun x : list (list K) => length x) ms) in E3'. rewrite E3'. reflexivity.
  Qed.
  Lemma tree_complete1 : complete_mmcs (tree_commit1 coords hash compress zero) tree_matrix1 tree_open (tree_verify1 coords hash compress digest_eqb).
  Proof using digest_refl.
    intros k m Hm HF.
    assert (HT : tallest [m] = 2 ^ k) by (unfold tallest; cbn; rewrite Nat.max_0_r; exact Hm).
    assert (HP : Forall (fun m => exists j, length m = 2 ^ j) [m]) by (constructor; [exists k; exact Hm|constructor]).
    assert (Hk : 2 ^ k <> 0) by (apply Nat.pow_nonzero; lia).
    destruct (tree_round [m] 0 ltac:(discriminate) HP ltac:(lia)) as (root & layers & _ & E1 & _). exists root, ([m], layers). unfold tree_commit1, tree_commit. rewrite E1. split; [reflexivity|]. split; [reflexivity|].
    intros i Hi. destruct (tree_round [m] i ltac:(discriminate) HP ltac:(lia)) as (root' & layers' & pf & E1' & E2' & E3'). rewrite E1 in E1'. injection E1' as <- <-. exists pf.
    assert (ER : map (fun m0 => nth (Nat.div i (Nat.div (tallest [m]) (length m0))) m0 []) [m] = [nth i m []]).
    { cbn [map]. rewrite HT, Hm, Nat.div_same, Nat.div_1_r by exact Hk. reflexivity. }
    rewrite ER in E2', E3'. split; [exact E2'|]. unfold tree_verify1, tree_verify. cbn [map snd]. cbn [map] in E3'. rewrite Hm in E3'. rewrite E3'. reflexivity.
  Qed.
End Merkle.
