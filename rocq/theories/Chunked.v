(** Map-reduce over the chunks of a container: the chunks are consecutive pieces and each callback sees the
    offset of its piece. *)
From Coq Require Import ZArith List Bool Lia.
From Verif Require Import BigIntModel ParallelizeModel ParallelizeSpec ParallelizeProof ParallelizeExtra.
Import ListNotations.
Open Scope Z_scope.

Fixpoint chunked {A B} (f : nat -> list A -> B) (off : nat) (ps : list (list A)) : list B :=
  match ps with [] => [] | p :: r => f off p :: chunked f (off + length p)%nat r end.

Lemma tiles_chunked {A B} (f : nat -> list A -> B) (l : list A) : forall calls idx pos, 0 <= pos ->
  tiles idx pos calls (Z.of_nat (length l)) ->
  map (fun c => f (Z.to_nat (snd (fst c))) (piece l c)) calls = chunked f (Z.to_nat pos) (map (piece l) calls).
Proof.
  induction calls as [|[[i s] n] cs IH]; intros idx pos Hp HT; [reflexivity|].
  pose proof (piece_length l ((i, s, n) :: cs) idx pos Hp HT) as HL. inversion HL as [|? ? H1 _]; subst. cbn [snd] in H1.
  cbn [tiles] in HT. destruct HT as (-> & -> & Hn & HT). cbn [map chunked fst snd]. f_equal.
  rewrite (IH (idx + 1) (pos + n) ltac:(lia) HT). f_equal. lia.
Qed.

Lemma tiles_nonempty : forall cs i p e, tiles i p cs e -> Forall (fun t => 0 < snd t) cs.
Proof.
  induction cs as [|[[i s] n] cs IH]; intros i0 p e HT; constructor; cbn [tiles] in HT; destruct HT as (_ & _ & Hn & HT); [exact Hn|].
  eapply IH. exact HT.
Qed.

Lemma map_chunked {A B} threads threshold (cb : Z -> Z -> list A -> B) (f : nat -> list A -> B) (l : list A) :
  0 < threads -> 2 * Z.of_nat (length l) + threads < 2 ^ 64 ->
  (forall i c s, 0 <= i -> 0 < c -> s <> [] -> i * c + Z.of_nat (length s) <= Z.of_nat (length l) -> cb i c s = f (Z.to_nat (i * c)) s) ->
  exists ps, concat ps = l /\ Forall (fun p => p <> []) ps /\ (Z.of_nat (length ps) <= threads) /\
    parallelize_map_by_chunk (num_elements_per_thread threads (Z.of_nat (length l)) threshold) cb l = chunked f 0 ps.
Proof.
  intros Ht Hb Hcb.
  destruct (container_partition threads (Z.of_nat (length l)) threshold Ht ltac:(lia) Hb) as [HT HN].
  set (c := num_elements_per_thread _ _ _) in *.
  exists (map (piece l) (chunk_calls (Z.of_nat (length l)) c)).
  pose proof (piece_length l _ 0 0 ltac:(lia) HT) as HP.
  assert (Hne : Forall (fun t => 0 < snd t) (chunk_calls (Z.of_nat (length l)) c)).
  { eapply tiles_nonempty. exact HT. }
  split; [apply (pieces_concat _ 0 0 l []); [cbn; exact HT|reflexivity]|].
  split. { apply Forall_map. rewrite Forall_forall in *. intros t Hin E. specialize (HP _ Hin). specialize (Hne _ Hin). rewrite E in HP. cbn in HP. lia. }
  split; [rewrite map_length; exact HN|].
  rewrite map_by_chunk_spec. change 0%nat with (Z.to_nat 0). rewrite <- (tiles_chunked f l _ 0 0 ltac:(lia) HT).
  destruct (container_chunk threads (Z.of_nat (length l)) threshold Ht ltac:(lia) Hb) as [[E1 E2]|[E1 E2]]; fold c in E2.
  - rewrite E2, chunk_calls_zero. reflexivity.
  - destruct (by_chunk_partition (Z.of_nat (length l)) c ltac:(lia) ltac:(lia) ltac:(lia)) as (_ & HS & _).
    assert (Hi : Forall (fun t => 0 <= fst (fst t)) (chunk_calls (Z.of_nat (length l)) c)).
    { rewrite calls_eq by lia. apply Forall_map, Forall_forall. intros; cbn; lia. }
    apply map_ext_in. intros [[i s] n] Hin.
    rewrite Forall_forall in HS, HP, Hi, Hne. specialize (HS _ Hin). specialize (HP _ Hin). specialize (Hi _ Hin). specialize (Hne _ Hin).
    cbn [fst snd] in *. destruct HS as [-> Hn].
    rewrite Hcb; try lia; [reflexivity| |].
    + intros E. rewrite E in HP. cbn in HP. lia.
    + assert (HPl : (length (piece l (i, (i * c)%Z, n)) <= length l - Z.to_nat (i * c))%nat).
      { cbn [piece]. rewrite firstn_length, skipn_length. lia. }
      assert (0 <= i * c) by nia. lia.
Qed.
