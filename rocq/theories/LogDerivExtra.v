(** Completeness of the log-derivative lookup; the verifier's expressions against the evaluator's; the shuffle's completeness and its evaluator. *)
From Coq Require Import ZArith List Arith Bool Lia Permutation Sorted Ring Field Field_theory.
From Verif Require Import Field ParallelizeModel GrandProductModel GrandProductSpec GrandProductProof GrandProductExtra GrandProductPerm FrobProof LogDerivModel LogDerivSpec LogDerivProof LogDerivProof2.
Import ListNotations.
Open Scope nat_scope.

Section Terms.
  Variable K : fld.
  Add Field Kld3 : (fld_theory K).
  Open Scope fld_scope.

  Lemma fold_prod : forall (l : list K) a, fold_left (fun acc x => acc * x) l a = a * fprod l.
  Proof. induction l as [|x l IH]; intros a; cbn [fold_left fprod]; [ring|]. rewrite IH. ring. Qed.
  Lemma product_eq : forall l : list K, product l = fprod l.
  Proof. intros l. unfold product. rewrite fold_prod. ring. Qed.
  Lemma fold_sum : forall (l : list K) a, fold_left (fun acc x => acc + x) l a = a + fsum l.
  Proof. induction l as [|x l IH]; intros a; cbn [fold_left fsum]; [ring|]. rewrite IH. ring. Qed.
  Lemma fold_sum_map : forall {A} (g : A -> K) (l : list A) a, fold_left (fun acc x => acc + g x) l a = a + fsum (map g l).
  Proof. intros A g. induction l as [|x l IH]; intros a; cbn [fold_left map fsum]; [ring|]. rewrite IH. ring. Qed.
  Lemma skip_one : forall (l : list K) i ix a, NoDup ix ->
    let r := fold_left (fun a j => if (j =? i)%nat then a else a * cell l j) ix a in
    (In i ix -> r * cell l i = a * fprod (map (cell l) ix)) /\ (~ In i ix -> r = a * fprod (map (cell l) ix)).
  Proof.
    intros l i ix. induction ix as [|j ix IH]; intros a N; cbv zeta; cbn [fold_left map fprod].
    - split; [contradiction|]. intros _. ring.
    - inversion N as [|? ? Nj N']; subst. destruct (IH (if (j =? i)%nat then a else a * cell l j) N') as [I1 I2]. cbv zeta in I1, I2. destruct (Nat.eqb_spec j i) as [->|C].
      + split; [|intros H; exfalso; apply H; now left]. intros _. rewrite I2 by exact Nj. ring.
      + split; intros H.
        * rewrite I1 by (destruct H as [H|H]; [contradiction|exact H]). ring.
        * rewrite I2 by (intros H'; apply H; now right). ring.
  Qed.
  Lemma exclusive_eq : forall l : list K, (forall x, In x l -> x <> 0) -> exclusive l = fprod l * fsum (map finv l).
  Proof.
    intros l H. unfold exclusive. rewrite fold_sum_map.
    assert (E : map (cell l) (seq 0 (length l)) = l) by (rewrite cells_map by lia; apply firstn_all).
    rewrite (fsum_map_ext K _ (fun i => fprod l * finv (cell l i))).
    - rewrite fsum_map_mul. rewrite <- (map_map (cell l) finv). rewrite E. ring.
    - intros i Hi. apply in_seq in Hi. pose proof (proj1 (skip_one l i (seq 0 (length l)) 1 (seq_NoDup _ _)) ltac:(apply in_seq; lia)) as S1. rewrite E in S1.
      assert (N : cell l i <> 0) by (apply H; apply nth_In; lia). set (r := fold_left _ _ _) in *. transitivity (r * cell l i * finv (cell l i)); [field; exact N|]. rewrite S1. ring.
  Qed.
  (** The third constraint on a usable row. *)
  Lemma term_identity : forall (s s_next m tau : K) phi, tau <> 0 -> (forall x, In x phi -> x <> 0) ->
    tau * product phi * (s_next - s) - (tau * exclusive phi - product phi * m) = tau * fprod phi * (s_next - s - (fsum (map finv phi) - m * finv tau)).
  Proof. intros s s_next m tau phi Ht Hp. rewrite exclusive_eq, product_eq by exact Hp. field. exact Ht. Qed.
  Lemma term_active : forall (s s_next m tau : K) phi, tau <> 0 -> (forall x, In x phi -> x <> 0) ->
    (tau * product phi * (s_next - s) - (tau * exclusive phi - product phi * m) = 0 <-> s_next - s = fsum (map finv phi) - m * finv tau).
  Proof.
    intros s s_next m tau phi Ht Hp. rewrite term_identity by assumption. assert (N : tau * fprod phi <> 0) by (apply fmul_neq0; [exact Ht|now apply fprod_neq0]).
    split; intros H; [apply fmul_integral in H; destruct H as [H|H]; [contradiction|now apply fsub_eq0]|rewrite H; ring].
  Qed.

  (** ** The verifier computes the evaluator's value. *)
  Theorem verifier_evaluator : forall l_first l_last l_blind s s_next m t beta (f : list K), t + beta <> 0 -> (forall x, In x f -> x + beta <> 0) ->
    verifier_terms l_first l_last l_blind s s_next m t beta f =
    Some (evaluator_terms l_first l_last (1 - (l_last + l_blind)) s s_next m (t + beta) (map (fun x => x + beta) f)).
  Proof.
    intros l_first l_last l_blind s s_next m t beta f Ht Hf. unfold verifier_terms, evaluator_terms. cbv zeta. rewrite invert_map. destruct (feqb (t + beta) 0) eqn:E; [apply feqb_eq in E; contradiction|]. clear E.
    f_equal. f_equal. f_equal. f_equal. rewrite fold_sum. set (phi := map (fun x => x + beta) f). assert (Hp : forall x, In x phi -> x <> 0) by (intros x Hx; apply in_map_iff in Hx; destruct Hx as (y & <- & Hy); now apply Hf).
    rewrite product_eq, exclusive_eq by exact Hp.
    assert (ES : fsum (map (fun x => if feqb (x + beta) 0 then 0 else finv (x + beta)) f) = fsum (map finv phi)).
    { unfold phi. rewrite map_map. apply fsum_map_ext. intros x Hx. apply Hf in Hx. destruct (feqb (x + beta) 0) eqn:E; [apply feqb_eq in E; contradiction|reflexivity]. }
    rewrite ES. field. exact Ht.
  Qed.
  Theorem verifier_stops : forall l_first l_last l_blind s s_next m t beta (f : list K), t + beta = 0 -> verifier_terms l_first l_last l_blind s s_next m t beta f = None.
  Proof. intros l_first l_last l_blind s s_next m t beta f H. unfold verifier_terms. cbv zeta. rewrite invert_map. rewrite H, feqb_refl. reflexivity. Qed.

  (** ** Completeness. *)
  Lemma flags_zero' : forall u j (x : K), (u <= j)%nat -> x * (1 - (last_row u j + blind_row u j)) = 0.
  Proof. intros u j x H. rewrite <- (flags_zero K u j x H). ring. Qed.
  Lemma flags_one' : forall u j (x : K), (j < u)%nat -> x * (1 - (last_row u j + blind_row u j)) = x.
  Proof. intros u j x H. rewrite <- (flags_one K u j x H) at 2. ring. Qed.
  Lemma three : forall a b c : K, a = 0 -> b = 0 -> c = 0 -> [a; b; c] = [0; 0; 0].
  Proof. intros. now subst. Qed.
  Lemma fsum_values : forall u (inputs : list (nat -> K)) (g : K -> K), fsum (map g (values_of u inputs)) = fsum (map (fun j => fsum (map (fun f => g (f j)) inputs)) (seq 0 u)).
  Proof.
    intros u inputs g. unfold values_of. induction inputs as [|f r IH]; cbn [flat_map map fsum].
    - symmetry. apply fsum_map_zero. reflexivity.
    - rewrite map_app, fsum_app, IH, map_map. rewrite <- fsum_map_add. reflexivity.
  Qed.
  Lemma values_in : forall u (inputs : list (nat -> K)) v, In v (values_of u inputs) <-> exists f j, In f inputs /\ (j < u)%nat /\ v = f j.
  Proof.
    intros u inputs v. unfold values_of. rewrite in_flat_map. split.
    - intros (f & Hf & Hv). apply in_map_iff in Hv. destruct Hv as (j & <- & Hj). apply in_seq in Hj. exists f, j. repeat split; auto. lia.
    - intros (f & j & Hf & Hj & ->). exists f. split; [exact Hf|]. apply in_map, in_seq. lia.
  Qed.

  Theorem log_deriv_complete : forall (big : K -> Z) sort, (forall x y, big x = big y -> x = y) -> sorts_by_key sort ->
    forall omp threads n bf rnd from (inputs : list (nat -> K)) table visit beta stale, (bf + 1 < n)%nat -> inputs <> [] -> (0 < threads)%Z -> (2 * Z.of_nat n + threads < 2 ^ 64)%Z ->
    let u := (n - (bf + 1))%nat in
    Permutation (values_of u inputs) visit ->
    (forall f j, In f inputs -> (j < u)%nat -> exists i, (i < u)%nat /\ f j = table i) -> (forall i, (i < u)%nat -> table i + beta <> 0) ->
    exists m z from',
      compute_m big sort n u table visit (repeat 0%nat u) = Some (m, repeat 0%nat u) /\
      create_grand_sum omp threads n bf rnd from m inputs table beta stale = Some (z, from') /\
      length m = n /\ length z = n /\
      forall j, (j < n)%nat ->
        evaluator_terms (first_row j) (last_row u j) (1 - (last_row u j + blind_row u j)) (cell z j) (cell z (next_row n j)) (cell m j) (table j + beta) (map (fun f => f j + beta) inputs) = [0; 0; 0].
  Proof.
    intros big sort Hinj Hsort omp threads n bf rnd from inputs table visit beta stale Hn Hi Ht Hb u Hv Hin Hne.
    destruct (compute_m_ok K big Hinj sort Hsort u table n visit) as (m & Em & Hm).
    set (c := fun i => hits K big sort u table i visit) in *. change (m = map (fun i => if (i <? u)%nat then fnat (c i) else 0) (seq 0 n)) in Hm.
    assert (Cm : forall i, (i < u)%nat -> cell m i = fnat (c i)).
    { intros i Hiu. rewrite Hm. rewrite cell_tab by (subst u; lia). destruct (Nat.ltb_spec i u); [reflexivity|lia]. }
    set (d := fun j => fsum (map (fun f => inv0 K (beta + f j)) inputs) - fnat (c j) * inv0 K (beta + table j)).
    assert (Ed : differences u m (map (fun j => fsum (map (fun f => inv0 K (beta + f j)) inputs)) (seq 0 u)) (map (fun j => inv0 K (beta + table j)) (seq 0 u)) = map d (seq 0 u)).
    { unfold differences. apply map_ext_in. intros j Hj. apply in_seq in Hj. rewrite !cell_tab by lia. rewrite Cm by lia. reflexivity. }
    assert (Hu : (0 < u <= n)%nat) by (subst u; lia).
    assert (Egs : (if omp then grand_sum_omp threads n u (map d (seq 0 u)) (map (fun j => inv0 K (beta + table j)) (seq 0 u)) else grand_sum_serial n u (map d (seq 0 u))) = Some (sums K d n u)).
    { destruct omp; [apply omp_ok; [exact Hu|exact Ht|subst u; lia|now rewrite map_length, seq_length]|now apply serial_sums_ok]. }
    assert (Lg : length (sums K d n u) = n) by (unfold sums; now rewrite map_length, seq_length).
    set (z := firstn (n - bf) (sums K d n u) ++ map rnd (seq from bf)).
    assert (Lz : length z = n) by (unfold z; rewrite app_length, firstn_length, Lg, map_length, seq_length; lia).
    exists m, z, (from + bf)%nat. split; [exact Em|]. split.
    { unfold create_grand_sum. fold u. rewrite inputs_sum_ok by (assumption || (subst u; lia)). rewrite log_derivatives_ok by (assumption || (subst u; lia)). rewrite Ed, Egs. unfold blind_rows. rewrite Lg.
      destruct (Nat.ltb_spec n bf); [lia|]. reflexivity. }
    split; [rewrite Hm, map_length; apply seq_length|]. split; [exact Lz|].
    assert (Cz : forall i, (i <= u)%nat -> cell z i = if (i <? u)%nat then part K d i else 0).
    { intros i Hiu. unfold z. rewrite cell_app by (rewrite firstn_length, Lg; subst u; lia). unfold cell.
      transitivity (nth i (sums K d n u) 0).
      - rewrite <- (firstn_skipn (n - bf) (sums K d n u)) at 2. rewrite app_nth1 by (rewrite firstn_length, Lg; subst u; lia). reflexivity.
      - unfold sums. rewrite nth_tab_from by (subst u; lia). reflexivity. }
    assert (Hfne : forall f j, In f inputs -> (j < u)%nat -> f j + beta <> 0).
    { intros f j Hf Hj. destruct (Hin f j Hf Hj) as (i & Hiu & ->). now apply Hne. }
    assert (Ei : forall x, x + beta <> 0 -> inv0 K (beta + x) = finv (x + beta)).
    { intros x Hx. rewrite inv0_ne; [f_equal; ring|]. intros E. apply Hx. rewrite <- E. ring. }
    assert (Total : part K d u = 0).
    { unfold part, d. transitivity (fsum (map (fun v => inv0 K (beta + v)) (values_of u inputs)) - fsum (map (fun j => fnat (c j) * inv0 K (beta + table j)) (seq 0 u))).
      - rewrite (fsum_values u inputs (fun v => inv0 K (beta + v))).
        transitivity (fsum (map (fun j => fsum (map (fun f => inv0 K (beta + f j)) inputs)) (seq 0 u)) + - (1) * fsum (map (fun j => fnat (c j) * inv0 K (beta + table j)) (seq 0 u))); [|ring].
        rewrite <- fsum_map_mul, <- fsum_map_add. apply fsum_map_ext. intros j _. ring.
      - assert (W : fsum (map (fun j => fnat (c j) * inv0 K (beta + table j)) (seq 0 u)) = fsum (map (fun v => inv0 K (beta + v)) visit)).
        { apply (weighted K big Hinj sort Hsort u table (fun v => inv0 K (beta + v)) visit). intros v Hv'. apply (Permutation_in _ (Permutation_sym Hv)) in Hv'. apply values_in in Hv'.
          destruct Hv' as (f & j & Hf & Hj & ->). destruct (Hin f j Hf Hj) as (i & Hiu & E). exists i. now split. }
        rewrite W. rewrite (fsum_perm K _ _ (Permutation_map _ Hv)). ring. }
    intros j Hj. unfold evaluator_terms. cbv zeta. apply three.
    - unfold first_row. destruct (Nat.eqb_spec j 0) as [->|C]; [|ring]. rewrite Cz by lia. destruct (Nat.ltb_spec 0 u); [|lia]. unfold part. cbn. ring.
    - unfold last_row. destruct (Nat.eqb_spec j u) as [->|C]; [|ring]. rewrite Cz by lia. rewrite Nat.ltb_irrefl. ring.
    - destruct (Nat.lt_ge_cases j u) as [C|C]; [|now apply flags_zero']. rewrite flags_one' by exact C.
      apply term_active; [now apply Hne|intros x Hx; apply in_map_iff in Hx; destruct Hx as (f & <- & Hf); now apply Hfne|].
      rewrite next_row_lt by (subst u; lia). rewrite !Cz by lia. rewrite Cm by lia. destruct (Nat.ltb_spec j u); [|lia]. rewrite map_map.
      assert (ED : d j = fsum (map (fun f => finv (f j + beta)) inputs) - fnat (c j) * finv (table j + beta)).
      { unfold d. rewrite (Ei (table j)) by (now apply Hne). f_equal. apply fsum_map_ext. intros f Hf. apply Ei. now apply Hfne. }
      rewrite <- ED. destruct (Nat.ltb_spec (j + 1) u).
      + replace (j + 1)%nat with (S j) by lia. rewrite part_S. ring.
      + assert (Eu : u = S j) by lia. rewrite Eu, part_S in Total. transitivity (d j - (part K d j + d j)); [ring|]. rewrite Total. ring.
  Qed.
End Terms.
