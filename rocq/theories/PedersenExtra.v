From Coq Require Import ZArith List Bool Arith Lia.
From Verif Require Import Field Zp GrothModel GrothInst GrothProof KzgModel PedersenModel PedersenSpec PedersenProof.
Import ListNotations.
Open Scope nat_scope.

Section Statements.
  Context {K : fld} {G : group K}.

  Lemma new_commit (max_size : nat) (h : G) (gs : list G) :
    (length gs <= max_size -> exists p, pedersen_new max_size h gs = Some p /\
       (forall v r, length v = length gs -> pd_commit p v r = Some (r ** h + combination v gs)%grp) /\
       (forall v r, length v <> length gs -> pd_commit p v r = None)) /\
    (max_size < length gs -> pedersen_new max_size h gs = None).
  Proof.
    unfold pedersen_new. split; intro L.
    - exists (mk_pedersen h gs). split; [rewrite (proj2 (Nat.leb_le _ _) L); reflexivity|]. split; intros v r E; rewrite commit_spec; cbn [pd_h pd_generators].
      + rewrite E, Nat.eqb_refl. reflexivity.
      + rewrite (proj2 (Nat.eqb_neq _ _) E). reflexivity.
    - rewrite (proj2 (Nat.leb_gt _ _) L). reflexivity.
  Qed.

  Lemma opening_relation (p : pedersen G) v w r s c : pd_commit p v r = Some c -> pd_commit p w s = Some c ->
    ((r - s)%fld ** pd_h p + combination (vector_difference v w) (pd_generators p) = gzero)%grp /\
    (v <> w -> exists i x, nth_error (vector_difference v w) i = Some x /\ x <> 0%fld).
  Proof.
    intros A B. split; [apply (two_openings p v w r s c A B)|]. intro N.
    rewrite commit_spec in A, B.
    destruct (Nat.eqb_spec (length v) (length (pd_generators p))) as [L|L]; [|discriminate].
    destruct (Nat.eqb_spec (length w) (length (pd_generators p))) as [L2|L2]; [|discriminate].
    assert (E : length v = length w) by congruence. clear - N E.
    revert w N E. induction v as [|a v IH]; intros [|b w] N E; try discriminate; [contradiction|].
    destruct (f_dec K a b) as [->|D].
    - destruct (IH w) as [i [x [X Y]]]; [congruence|cbn in E; lia|]. exists (S i), x. split; [exact X|exact Y].
    - exists 0, (a - b)%fld. split; [reflexivity|]. intro Z. apply D. apply (proj1 (fsub_eq0 K a b) Z).
  Qed.

  Lemma kzg_session (k : kzg G) d n qs : 0 < n -> Forall (fun q => snd q < n) qs -> exists out,
    session (kzg_step k) d n qs batch_new = Some (map (fun q => match kzg_value k (fst q) with Some _ => true | None => false end) qs, out, batch_new) /\
    length out = n /\ (forall i, i < n -> nth_error out i = Some (last_at (kzg_value k) d i qs)) /\
    (NoDup (map snd qs) -> forall q i c, In (q, i) qs -> kzg_value k q = Some c -> nth_error out i = Some c).
  Proof.
    intros N F. destruct (session_ok (kzg_value k) (kzg_step k) (kzg_steps k) d n qs N F) as [out [E [L X]]].
    exists out. split; [exact E|]. split; [exact L|]. split; [exact X|].
    intros ND q i c I V. rewrite X.
    - f_equal. apply (last_at_once (kzg_value k) d i q c qs ND I V).
    - rewrite Forall_forall in F. apply (F (q, i) I).
  Qed.

  Lemma unblinded_msm (p : pedersen G) q : msm_run (pd_generators p) (fst q) = unblinded p q.
  Proof.
    unfold unblinded, pd_commit. destruct (msm_run (pd_generators p) (fst q)) as [g|]; [|reflexivity].
    cbn. unfold compute_commitment. rewrite gmul_0, gadd_zero. reflexivity.
  Qed.
  Lemma pedersen_session (p : pedersen G) d n qs : 0 < n -> Forall (fun q => snd q < n) qs -> exists out,
    session (pd_step d p) d n qs batch_new =
      Some (map (fun q => Nat.eqb (length (fst (fst q))) (length (pd_generators p))) qs, out, batch_new) /\
    length out = n /\ (forall i, i < n -> nth_error out i = Some (last_at (unblinded p) d i qs)) /\
    (NoDup (map snd qs) -> forall q i c, In (q, i) qs -> unblinded p q = Some c -> nth_error out i = Some c).
  Proof.
    intros N F.
    assert (ST : steps_as (unblinded p) (pd_step d p)).
    { destruct (pd_steps d p) as [A B]. split; [|exact B]. intros q i s M L. rewrite A by assumption.
      rewrite unblinded_msm. reflexivity. }
    destruct (session_ok (unblinded p) (pd_step d p) ST d n qs N F) as [out [E [L X]]].
    exists out. split.
    - rewrite E. f_equal. f_equal. f_equal. apply map_ext. intros [q j]. unfold succeeds, unblinded. cbn [fst].
      rewrite commit_spec. destruct (Nat.eqb _ _); reflexivity.
    - split; [exact L|]. split; [exact X|]. intros ND q i c I V. rewrite X.
      + f_equal. apply (last_at_once (unblinded p) d i q c qs ND I V).
      + rewrite Forall_forall in F. apply (F (q, i) I).
  Qed.

  Lemma batch_misuse (k : kzg G) (p : pedersen G) (d : G) :
    (forall q i s, b_mode s = false -> kzg_step k q i s = None) /\
    (forall q i s, b_mode s = false -> pd_step d p q i s = None) /\
    (forall n m s s', set_batch_mode d n s = Some s' -> 0 < n -> 0 < m -> set_batch_mode d m s' = None) /\
    (forall n qs q i r, 0 < n -> Forall (fun q => snd q < n) qs -> n <= i -> session (kzg_step k) d n (qs ++ (q, i) :: r) batch_new = None) /\
    (forall n qs q i r, 0 < n -> Forall (fun q => snd q < n) qs -> n <= i -> session (pd_step d p) d n (qs ++ (q, i) :: r) batch_new = None).
  Proof.
    split; [intros q i s; apply (outside_batch (kzg_value k) _ (kzg_steps k))|].
    split; [intros q i s; apply (outside_batch _ _ (pd_steps d p))|].
    split; [intros n m s s'; apply set_twice|].
    split; intros n qs q i r; [apply (bad_index (kzg_value k) _ (kzg_steps k))|apply (bad_index _ _ (pd_steps d p))].
  Qed.
End Statements.

(** The field as the group. *)
Definition e13' (z : Z) : F13 := mkz 13 (prime_check_sound 13 eq_refl) z.
Definition P13 : group F13 := self_group F13.
Definition p13 : pedersen P13 := mk_pedersen (e13' 2 : P13) [e13' 3 : P13; e13' 5 : P13].
Definition val_of (x : P13) : Z := zval 13 (x : F13).

Lemma batch_blinding_lost : exists (p : pedersen P13) (d : P13) v r c c' oks s,
  session (pd_step d p) d 1 [((v, r), 0%nat)] batch_new = Some (oks, [c], s) /\ oks = [true] /\
  pd_commit p v r = Some c' /\ c <> c'.
Proof.
  exists p13, (e13' 0 : P13), [e13' 1; e13' 4], (e13' 6).
  destruct (pedersen_session p13 (e13' 0 : P13) 1 [(([e13' 1; e13' 4], e13' 6), 0%nat)]) as [out [E [L [X _]]]];
    [lia|constructor; [cbn; lia|constructor]|].
  destruct out as [|c [|c2 out]]; [discriminate| |discriminate].
  specialize (X 0%nat ltac:(lia)). cbn [nth_error] in X. injection X as X.
  exists c, (compute_commitment p13 (e13' 6) (msm_sum (pd_generators p13) [e13' 1; e13' 4])), [true], batch_new.
  split; [exact E|]. split; [reflexivity|]. split; [reflexivity|].
  rewrite X. intro H. apply (f_equal val_of) in H. vm_compute in H. discriminate.
Qed.
