(** The grand sum: both builds compute the partial sums of the differences, and the prover's columns satisfy every constraint. *)
From Coq Require Import ZArith List Arith Bool Lia Permutation Sorted Ring Field Field_theory.
From Verif Require Import Field ParallelizeModel ParallelizeSpec ParallelizeProof ParallelizeExtra SemigroupModel GrandProductModel GrandProductSpec GrandProductProof GrandProductExtra GrandProductPerm FrobProof LogDerivModel LogDerivSpec LogDerivProof.
Import ListNotations.
Open Scope nat_scope.

Lemma seq_from : forall w s z, map (fun i => (s + i)%nat) (seq z w) = seq (s + z) w.
Proof. induction w as [|w IH]; intros s z; [reflexivity|]. cbn [seq map]. f_equal. rewrite IH. f_equal. lia. Qed.

Section GrandSum.
  Variable K : fld.
  Add Field Kld2 : (fld_theory K).
  Open Scope fld_scope.

  Lemma nth_tab_from : forall (f : nat -> K) a u i, (i < u)%nat -> nth i (map f (seq a u)) 0 = f (a + i)%nat.
  Proof. intros f a u i H. rewrite (nth_indep _ 0 (f 0%nat)) by (rewrite map_length, seq_length; lia). rewrite map_nth, seq_nth by lia. reflexivity. Qed.
  Lemma cell_tab : forall (f : nat -> K) u i, (i < u)%nat -> cell (map f (seq 0 u)) i = f i.
  Proof. intros f u i H. unfold cell. rewrite (nth_indep _ 0 (f 0%nat)) by (rewrite map_length, seq_length; lia). rewrite map_nth, seq_nth by lia. reflexivity. Qed.

  (** ** Log derivatives. *)
  Definition inv0 (x : K) : K := if feqb x 0 then 0 else finv x.
  Lemma inv0_ne : forall x, x <> 0 -> inv0 x = finv x.
  Proof. intros x H. unfold inv0. destruct (feqb x 0) eqn:E; [apply feqb_eq in E; contradiction|reflexivity]. Qed.
  Lemma log_derivatives_ok : forall threads u evals beta, (0 < threads)%Z -> (2 * Z.of_nat u + threads < 2 ^ 64)%Z ->
    log_derivatives threads u evals beta = Some (map (fun j => inv0 (beta + evals j)) (seq 0 u)).
  Proof.
    intros threads u evals beta Ht Hb. unfold log_derivatives.
    destruct (parallelize_calls threads (Z.of_nat u) Ht ltac:(lia) Hb) as [HT _]. cbv zeta in HT. set (calls := chunk_calls _ _) in *.
    pose proof (tiles_pointwise (fun j => inv0 (beta + evals j)) calls 0%Z 0%Z _ ltac:(lia) HT) as TP. rewrite Z.sub_0_r, Nat2Z.id in TP. change (Z.to_nat 0) with 0%nat in TP. rewrite <- TP. clear TP HT.
    induction calls as [|[[i start] len] calls IH]; [reflexivity|]. cbn [map all_chunks concat fst snd]. unfold log_chunk at 1. rewrite invert_map. rewrite IH. reflexivity.
  Qed.
  Lemma add_rows_tab : forall (f g : nat -> K) l, add_rows (map f l) (map g l) = map (fun j => f j + g j) l.
  Proof. intros f g l. unfold add_rows. induction l as [|x l IH]; [reflexivity|]. cbn [map combine fst snd]. f_equal. exact IH. Qed.
  Lemma inputs_sum_acc : forall threads u beta, (0 < threads)%Z -> (2 * Z.of_nat u + threads < 2 ^ 64)%Z -> forall inputs (a : nat -> K),
    inputs_sum threads u inputs beta false (map a (seq 0 u)) = Some (map (fun j => a j + fsum (map (fun f => inv0 (beta + f j)) inputs)) (seq 0 u)).
  Proof.
    intros threads u beta Ht Hb. induction inputs as [|f r IH]; intros a; cbn [inputs_sum].
    - f_equal. apply map_ext. intros j. cbn. ring.
    - rewrite log_derivatives_ok by assumption. rewrite add_rows_tab. rewrite (IH (fun j => a j + inv0 (beta + f j))). f_equal. apply map_ext. intros j. cbn [map fsum]. ring.
  Qed.
  Lemma inputs_sum_ok : forall threads u beta inputs stale, (0 < threads)%Z -> (2 * Z.of_nat u + threads < 2 ^ 64)%Z -> inputs <> [] ->
    inputs_sum threads u inputs beta true stale = Some (map (fun j => fsum (map (fun f => inv0 (beta + f j)) inputs)) (seq 0 u)).
  Proof.
    intros threads u beta inputs stale Ht Hb Hi. destruct inputs as [|f r]; [contradiction|]. cbn [inputs_sum]. rewrite log_derivatives_ok by assumption. rewrite inputs_sum_acc by assumption.
    f_equal.
  Qed.

  (** ** Partial sums. *)
  Section Sums.
    Variable d : nat -> K.
    Definition part (i : nat) : K := fsum (map d (seq 0 i)).
    Lemma part_S : forall i, part (S i) = part i + d i.
    Proof. intros i. unfold part. apply fsum_seq_S. Qed.
    Lemma chunk_sums_ok : forall l s c, chunk_sums (c + part s) (map d (seq s l)) = map (fun k => c + part k) (seq (S s) l).
    Proof.
      induction l as [|l IH]; intros s c; [reflexivity|]. cbn [seq map chunk_sums]. assert (E : c + part s + d s = c + part (S s)) by (rewrite part_S; ring). rewrite E. f_equal. apply IH.
    Qed.
    Lemma chunk_sums_gen : forall (l : list K) c, chunk_sums c l = map (fun k => c + fsum (firstn k l)) (seq 1 (length l)).
    Proof.
      induction l as [|x l IH]; intros c; [reflexivity|]. cbn [chunk_sums length seq map firstn fsum]. f_equal; [ring|]. rewrite IH, <- (seq_shift (length l) 1), map_map. apply map_ext. intros k. cbn [firstn fsum]. ring.
    Qed.
    Lemma prefix_cell : forall (l : list K) i, (i < length l)%nat -> cell (prefix_sums l) i = fsum (firstn (S i) l).
    Proof.
      intros [|x l] i H; [cbn in H; lia|]. cbn [prefix_sums]. destruct i as [|i]; [cbn; ring|]. unfold cell. cbn [nth]. rewrite chunk_sums_gen.
      cbn in H. rewrite (nth_tab_from (fun k => x + fsum (firstn k l))) by lia. reflexivity.
    Qed.

    Variables (n u : nat).
    Hypothesis Hu : (0 < u <= n)%nat.
    Let diff := map d (seq 0 u).
    Let gs := grand_sum_initial n u diff.
    Lemma gs_cell : forall s, (s < u)%nat -> cell gs s = part s - part (s - 1).
    Proof.
      intros s Hs. unfold gs, grand_sum_initial. rewrite cell_tab by lia. destruct (Nat.eqb_spec s 0) as [->|C]; [cbn [Nat.sub]; unfold part; cbn; ring|].
      destruct (Nat.ltb_spec s u); [|lia]. unfold diff. rewrite cell_tab by lia. replace s with (S (s - 1)) at 2 by lia. rewrite part_S. ring.
    Qed.
    Lemma gs_rest : skipn u gs = map (fun _ => 0) (seq u (n - u)).
    Proof.
      unfold gs, grand_sum_initial. rewrite skipn_map. replace (skipn u (seq 0 n)) with (seq u (n - u)).
      - apply map_ext_in. intros i Hi. apply in_seq in Hi. destruct (Nat.eqb_spec i 0); [lia|]. destruct (Nat.ltb_spec i u); [lia|reflexivity].
      - replace n with (u + (n - u))%nat at 2 by lia. rewrite seq_app, skipn_app, seq_length, Nat.sub_diag. rewrite skipn_all2 by (rewrite seq_length; lia). reflexivity.
    Qed.
    Lemma sum_chunk_ok : forall i start len, (0 <= start)%Z -> (0 < len)%Z -> (start + len <= Z.of_nat u)%Z ->
      sum_chunk gs diff (i, start, len) = map (fun k => part k - part (Z.to_nat start - 1)) (seq (Z.to_nat start) (Z.to_nat len)).
    Proof.
      intros i start len Hs Hl He. unfold sum_chunk. cbv zeta. set (s := Z.to_nat start). destruct (Z.to_nat len) as [|l] eqn:El; [lia|]. cbn [seq map]. rewrite gs_cell by lia. f_equal.
      assert (E : map (fun i => cell diff (s + i - 1)) (seq 1 l) = map d (seq s l)).
      { rewrite <- seq_shift, map_map. replace (seq s l) with (map (fun i => (s + i)%nat) (seq 0 l)).
        - rewrite map_map. apply map_ext_in. intros k Hk. apply in_seq in Hk. unfold diff. rewrite cell_tab by lia. f_equal. lia.
        - rewrite seq_from. f_equal. lia. }
      rewrite E. transitivity (chunk_sums (- part (s - 1) + part s) (map d (seq s l))); [f_equal; ring|]. rewrite chunk_sums_ok. apply map_ext. intros k. ring.
    Qed.

    Lemma last_map_seq : forall (f : nat -> K) s l, (0 < l)%nat -> last (map f (seq s l)) 0 = f (s + l - 1)%nat.
    Proof.
      intros f s l Hl. destruct l as [|l]; [lia|]. rewrite seq_S, map_app. cbn [map]. rewrite last_last. f_equal. lia.
    Qed.
    Lemma put_mid : forall (pre : list K) y post x, put (pre ++ y :: post) (length pre) x = Some (pre ++ x :: post).
    Proof. induction pre as [|p pre IH]; intros y post x; cbn [app length put]; [reflexivity|]. now rewrite IH. Qed.
    Let back (c : Z * Z * Z) : K := last (sum_chunk gs diff c) 0.
    Lemma put_backs_ok : forall calls idx pos stop (pre rest : list K), tiles idx pos calls stop -> Z.of_nat (length pre) = idx -> (length calls <= length rest)%nat ->
      put_backs (pre ++ rest) (map (fun c => (c, sum_chunk gs diff c)) calls) = Some (pre ++ map back calls ++ skipn (length calls) rest).
    Proof.
      induction calls as [|[[i s] l] calls IH]; intros idx pos stop pre rest HT Hp Hr; cbn [tiles] in HT; [reflexivity|]. destruct HT as (-> & -> & Hl & HT).
      destruct rest as [|y rest]; [cbn in Hr; lia|]. cbn [map put_backs]. subst idx. rewrite Nat2Z.id, put_mid.
      change (pre ++ last (sum_chunk gs diff (Z.of_nat (length pre), pos, l)) 0 :: rest) with (pre ++ [back (Z.of_nat (length pre), pos, l)] ++ rest). rewrite app_assoc.
      rewrite (IH (Z.of_nat (length pre) + 1)%Z (pos + l)%Z stop).
      - rewrite <- app_assoc. reflexivity.
      - exact HT.
      - rewrite app_length. cbn. lia.
      - cbn in Hr. lia.
    Qed.
    Lemma raise_ok : forall calls idx pos (pre rest : list K), (0 <= pos)%Z -> tiles idx pos calls (Z.of_nat u) -> Z.of_nat (length pre) = idx -> fsum pre = part (Z.to_nat pos - 1) ->
      concat (map (raise_chunk (prefix_sums (pre ++ map back calls ++ rest))) (map (fun c => (c, sum_chunk gs diff c)) calls)) = map part (seq (Z.to_nat pos) (u - Z.to_nat pos)).
    Proof.
      induction calls as [|[[i s] l] calls IH]; intros idx pos pre rest H0 HT Hp HS; cbn [tiles] in HT.
      - subst pos. rewrite Nat2Z.id, Nat.sub_diag. reflexivity.
      - destruct HT as (-> & -> & Hl & HT). pose proof (tiles_le _ _ _ _ HT) as Hle. cbn [map concat].
        assert (C : sum_chunk gs diff (idx, pos, l) = map (fun k => part k - part (Z.to_nat pos - 1)) (seq (Z.to_nat pos) (Z.to_nat l))) by (apply sum_chunk_ok; lia).
        set (L := pre ++ (back (idx, pos, l) :: map back calls) ++ rest).
        assert (E : raise_chunk (prefix_sums L) (idx, pos, l, sum_chunk gs diff (idx, pos, l)) = map part (seq (Z.to_nat pos) (Z.to_nat l))).
        { unfold raise_chunk. rewrite C. destruct (Z.eqb_spec idx 0) as [E0|E0].
          - apply map_ext. intros k. assert (Hn : length pre = 0%nat) by lia. destruct pre; [|discriminate]. cbn [fsum] in HS. rewrite <- HS. ring.
          - rewrite map_map. apply map_ext. intros k. rewrite prefix_cell by (unfold L; rewrite app_length; lia). replace (S (Z.to_nat idx - 1)) with (length pre) by lia.
            unfold L. rewrite firstn_app, Nat.sub_diag, firstn_all, firstn_O, app_nil_r, HS. ring. }
        rewrite E. replace L with ((pre ++ [back (idx, pos, l)]) ++ map back calls ++ rest) by (unfold L; rewrite <- app_assoc; reflexivity).
        rewrite (IH (idx + 1)%Z (pos + l)%Z).
        + rewrite <- map_app. f_equal. replace (Z.to_nat (pos + l)) with (Z.to_nat pos + Z.to_nat l)%nat by lia. rewrite <- seq_app. f_equal. lia.
        + lia.
        + exact HT.
        + rewrite app_length. cbn. lia.
        + rewrite fsum_app, HS. unfold back. rewrite C. rewrite last_map_seq by lia. cbn [fsum]. replace (Z.to_nat pos + Z.to_nat l - 1)%nat with (Z.to_nat (pos + l) - 1)%nat by lia. ring.
    Qed.
    Lemma tiles_count : forall calls idx pos stop, tiles idx pos calls stop -> (Z.of_nat (length calls) <= stop - pos)%Z.
    Proof.
      induction calls as [|[[i s] l] calls IH]; intros idx pos stop HT; cbn [tiles] in HT; [cbn; lia|]. destruct HT as (_ & _ & Hl & HT). specialize (IH _ _ _ HT). cbn [length]. lia.
    Qed.

    Definition sums : list K := map (fun i => if (i <? u)%nat then part i else 0) (seq 0 n).
    Lemma sums_split : map part (seq 0 u) ++ skipn u gs = sums.
    Proof.
      rewrite gs_rest. unfold sums. replace n with (u + (n - u))%nat at 2 by lia. rewrite seq_app, map_app. f_equal; apply map_ext_in; intros i Hi; apply in_seq in Hi; destruct (Nat.ltb_spec i u); (lia || reflexivity).
    Qed.
    Theorem omp_ok : forall threads (table_ld : list K), (0 < threads)%Z -> (2 * Z.of_nat u + threads < 2 ^ 64)%Z -> length table_ld = u ->
      grand_sum_omp threads n u diff table_ld = Some sums.
    Proof.
      intros threads table_ld Ht Hb Lt. unfold grand_sum_omp. fold gs. destruct (parallelize_calls threads (Z.of_nat u) Ht ltac:(lia) Hb) as [HT _]. cbv zeta in HT. cbv zeta.
      set (calls := chunk_calls _ _) in *. pose proof (tiles_count _ _ _ _ HT) as HC.
      pose proof (put_backs_ok calls 0%Z 0%Z _ [] table_ld HT eq_refl ltac:(lia)) as PB. cbn [app] in PB. rewrite PB. f_equal.
      pose proof (raise_ok calls 0%Z 0%Z [] (skipn (length calls) table_ld) ltac:(lia) HT eq_refl) as RO. cbn [app] in RO. rewrite RO by reflexivity. change (Z.to_nat 0) with 0%nat. rewrite Nat.sub_0_r. apply sums_split.
    Qed.
    Theorem serial_sums_ok : grand_sum_serial n u diff = Some sums.
    Proof.
      unfold grand_sum_serial. fold gs. cbv zeta. assert (Er : removelast diff = map d (seq 0 (u - 1))).
      { unfold diff. replace u with (S (u - 1)) at 1 by lia. rewrite seq_S, map_app. cbn [map]. now rewrite removelast_last. }
      rewrite Er. rewrite <- sums_split. assert (F1 : firstn 1 gs = [0]).
      { unfold gs, grand_sum_initial. destruct n as [|k]; [lia|]. reflexivity. }
      destruct (u - 1)%nat as [|w] eqn:Eu.
      - cbn [seq map]. f_equal. replace u with 1%nat by lia. cbn [seq map app]. rewrite <- (firstn_skipn 1 gs) at 1. rewrite F1. unfold part. reflexivity.
      - cbn [seq map]. f_equal. rewrite F1. cbn [app]. replace u with (S (S w)) by lia. cbn [seq map app]. f_equal. f_equal.
        + unfold part. cbn. ring.
        + f_equal. pose proof (chunk_sums_ok w 1 0) as CS. transitivity (chunk_sums (0 + part 1) (map d (seq 1 w))); [f_equal; unfold part; cbn; ring|]. rewrite CS. apply map_ext. intros k. ring.
    Qed.
  End Sums.
End GrandSum.
