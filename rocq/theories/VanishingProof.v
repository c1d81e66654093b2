(** Proofs: ζ, division by the vanishing polynomial and the transforms of the extended domain. *)
From Coq Require Import ZArith List Arith Lia Bool Ring Field Field_theory.
From Verif Require Import Field BigIntModel ParallelizeModel ParallelizeSpec ParallelizeProof ParallelizeExtra SemigroupModel PolyModel PolySpec PolyProof PolyProof3 FFTModel FFTSpec FFTProof4 FFTProof5 FFTExtra
  DomainModel DomainSpec DomainProof CosetProof FriProof KzgProof2 GrandProductModel GrandProductProof LogDerivProof2 VanishingModel VanishingSpec.
Import ListNotations.

Section Ext.
  Variable K : fld.
  Add Field Kvan1 : (fld_theory K).
  Open Scope fld_scope.
  Variables (adicity : nat) (root : K).
  Hypothesis Had : (adicity < 62)%nat.
  Hypothesis Hroot : primitive_root root (2 ^ adicity).
  Notation gen := (generator adicity root).
  Variables (k e : nat) (d ext : domain K).
  Hypothesis Hke : (k <= e <= adicity)%nat.
  Hypothesis Hd : radix2_domain adicity root k 1 d.
  Hypothesis Hext : radix2_domain adicity root e 1 ext.
  Variable zeta : K.
  Hypothesis Hz3 : zeta * zeta * zeta = 1.
  Hypothesis Hz1 : zeta <> 1.
  Variable threads : Z.
  Hypothesis Hth : (0 < threads < 128)%Z.

  Lemma zeros_values (f : nat -> K) n s : repeat 0 n = map (fun i => eval ([] : list K) (f i)) (seq s n).
  Proof. revert s. induction n as [|n IH]; intros s; [reflexivity|]. cbn [repeat seq map]. f_equal. apply IH. Qed.
  Lemma zeta_neq0 : zeta <> 0.
  Proof. intros E. rewrite E in Hz3. apply (f1_neq_0 K). rewrite <- Hz3. ring. Qed.
  Lemma zeta_mod3 i : zeta ^ (i mod 3) = zeta ^ i.
  Proof.
    rewrite (Nat.div_mod i 3) at 2 by lia. rewrite fpow_add, fpow_mul. replace (zeta ^ 3) with (1 : K) by (symmetry; cbn [fpow]; transitivity (zeta * zeta * zeta); [ring|exact Hz3]). rewrite fpow_one. ring.
  Qed.
  Lemma pow_mod3 (a : nat) : zeta ^ (2 ^ a) <> 1.
  Proof.
    intros E. assert (H : forall a, (2 ^ a mod 3 = 1 \/ 2 ^ a mod 3 = 2)%nat).
    { clear. intros a. induction a as [|a IH]; [left; reflexivity|]. rewrite Nat.pow_succ_r', Nat.mul_mod by lia. destruct IH as [-> | ->]; [right|left]; reflexivity. }
    rewrite <- zeta_mod3 in E. destruct (H a) as [Ha|Ha]; rewrite Ha in E; [cbn [fpow] in E; apply Hz1; rewrite <- E; ring|]. cbn [fpow] in E.
    apply Hz1. rewrite <- Hz3. transitivity (zeta * (zeta * (zeta * 1))); [rewrite E; ring|ring].
  Qed.
  (** The extended coset avoids the domain. *)
  Lemma coset_outside p : (zeta * gen e ^ p) ^ (2 ^ k) <> 1.
  Proof.
    intros E. destruct (gen_primitive K adicity root ltac:(lia) Hroot e ltac:(lia)) as [H1 _].
    assert (E2 : (zeta * gen e ^ p) ^ (2 ^ e) = 1). { assert (Epe : (2 ^ e = 2 ^ k * 2 ^ (e - k))%nat) by (rewrite <- Nat.pow_add_r; f_equal; lia). rewrite Epe, fpow_mul, E. apply fpow_one. }
    rewrite fpow_mul_base, <- fpow_mul, Nat.mul_comm, fpow_mul, H1, fpow_one in E2. apply (pow_mod3 e). rewrite <- E2. ring.
  Qed.

  Lemma exp_pow_of_two_spec (x : K) a : exp_pow_of_two x a = x ^ (2 ^ a).
  Proof.
    unfold exp_pow_of_two. induction a as [|n IH]; [cbn [Nat.iter Nat.pow]; rewrite fpow_1; reflexivity|].
    change (Nat.iter (S n) (fun v => v * v) x) with ((Nat.iter n (fun v => v * v) x) * (Nat.iter n (fun v => v * v) x)). rewrite IH, <- fpow_add. f_equal. cbn [Nat.pow]. lia.
  Qed.
  Lemma successive_spec (g x : K) len i : successive g (x * g ^ i) len = map (fun j => x * g ^ j) (seq i len).
  Proof.
    revert i. induction len as [|len IH]; intros i; cbn [successive seq map]; [reflexivity|]. f_equal. rewrite <- IH. f_equal. rewrite fpow_S. ring.
  Qed.

  Lemma divide_spec (evals : list K) : length evals = (2 ^ e)%nat ->
    divide_by_vanishing threads ext d zeta evals = Some (map (fun p => nth p evals 0 * finv ((zeta * gen e ^ p) ^ (2 ^ k) - 1)) (seq 0 (2 ^ e))).
  Proof.
    intros HL. destruct (rdom_ok K adicity root k 1 d Had Hroot ltac:(lia) Hd) as [Ok _]. destruct (rdom_ok K adicity root e 1 ext Had Hroot ltac:(lia) Hext) as [Oe Pe].
    unfold divide_by_vanishing. rewrite (do_size _ _ _ _ _ Oe), (do_log _ _ _ _ _ Oe), (do_log _ _ _ _ _ Ok), (do_gen _ _ _ _ _ Oe), HL, Nat.eqb_refl. cbn [negb orb].
    replace (Nat.ltb e k) with false by (symmetry; apply Nat.ltb_ge; lia). cbv zeta. rewrite !exp_pow_of_two_spec.
    set (m := Nat.pow 2 (e - k)). set (zn := zeta ^ (2 ^ k)). set (gn := gen e ^ (2 ^ k)).
    pose proof (pow2_small (e - k) ltac:(lia)) as Hm. fold m in Hm.
    assert (Hm0 : (0 < m)%nat) by (unfold m; apply Nat.neq_0_lt_0, Nat.pow_nonzero; lia).
    assert (Hgm : gn ^ m = 1). { unfold gn, m. rewrite <- fpow_mul, <- Nat.pow_add_r. replace (k + (e - k))%nat with e by lia. apply Pe. }
    assert (HT : all_chunks (map (t_chunk zn gn) (chunk_calls (Z.of_nat m) (size_per_thread threads (Z.of_nat m) None))) = Some (map (fun i => finv (zn * gn ^ i - 1)) (seq 0 m))).
    { destruct (parallelize_calls threads (Z.of_nat m) ltac:(lia) ltac:(lia) ltac:(lia)) as [HT _]. cbv zeta in HT. set (calls := chunk_calls _ _) in *.
      pose proof (tiles_pointwise (fun i => finv (zn * gn ^ i - 1)) calls 0%Z 0%Z _ ltac:(lia) HT) as TP. rewrite Z.sub_0_r, Nat2Z.id in TP. change (Z.to_nat 0) with 0%nat in TP. rewrite <- TP. clear TP.
      assert (HB : forall i p, (0 <= p)%Z -> tiles i p calls (Z.of_nat m) -> all_chunks (map (t_chunk zn gn) calls) = Some (concat (map (fun c => map (fun j => finv (zn * gn ^ j - 1)) (seq (Z.to_nat (snd (fst c))) (Z.to_nat (snd c)))) calls))).
      2:{ apply (HB 0%Z 0%Z); [lia|exact HT]. }
      clear HT. induction calls as [|[[i start] len] calls IH]; [reflexivity|]. intros i0 p Hp (-> & -> & Hn & HT). pose proof (tiles_le _ _ _ _ HT) as Hle. cbn [map all_chunks concat fst snd]. unfold t_chunk at 1.
      rewrite do_pow_fpow by lia. rewrite successive_spec, map_map, invert_map, (IH (i0 + 1)%Z (p + len)%Z ltac:(lia) HT). cbn [option_map]. do 2 f_equal. apply map_ext. intros j.
      destruct (feqb (zn * gn ^ j - 1) 0) eqn:E; [|reflexivity]. exfalso. apply feqb_eq in E. apply (proj1 (fsub_eq0 K _ _)) in E. apply (coset_outside j).
      rewrite fpow_mul_base, <- fpow_mul, Nat.mul_comm, fpow_mul. fold gn zn. exact E. }
    rewrite HT. apply all_some_tab. intros p Hp. apply in_seq in Hp. rewrite map_length, seq_length.
    rewrite (nth_error_nth' evals 0) by lia. pose proof (Nat.mod_upper_bound p m ltac:(lia)) as HM.
    rewrite (map_nth_error (fun i => finv (zn * gn ^ i - 1)) (Nat.modulo p m) (seq 0 m) (d := Nat.modulo p m)).
    2:{ rewrite (nth_error_nth' _ 0%nat) by (rewrite seq_length; lia). rewrite seq_nth by lia. reflexivity. }
    do 4 f_equal. rewrite fpow_mul_base, <- (fpow_mul K (gen e)), (Nat.mul_comm p), fpow_mul. fold gn zn. f_equal. rewrite (Nat.div_mod p m) at 2 by lia. rewrite fpow_add, fpow_mul, Hgm, fpow_one. ring.
  Qed.

  (** DistributePowersZeta. *)
  Lemma distribute_coeff into (l : list K) i : coeff (distribute_powers_zeta zeta into l) i = (if into then zeta else zeta * zeta) ^ i * coeff l i.
  Proof.
    unfold coeff, distribute_powers_zeta. destruct (Nat.ltb_spec i (length l)) as [Hi|Hi].
    2:{ rewrite (nth_overflow l) by lia. rewrite nth_overflow by (rewrite map_length, seq_length; lia). ring. }
    rewrite (nth_tab_from K _ 0 (length l) i Hi). cbn [plus]. pose proof (Nat.mod_upper_bound i 3 ltac:(lia)) as HM.
    assert (E : (if into then zeta else zeta * zeta) ^ i = match Nat.modulo i 3 with O => 1 | S O => if into then zeta else zeta * zeta | _ => if into then zeta * zeta else zeta end).
    { destruct into.
      - rewrite <- zeta_mod3. destruct (Nat.modulo i 3) as [|[|[|m]]]; [reflexivity|cbn; ring|cbn; ring|lia].
      - rewrite fpow_mul_base, <- zeta_mod3. destruct (Nat.modulo i 3) as [|[|[|m]]]; [cbn; ring|cbn; ring| |lia]. cbn [fpow]. transitivity (zeta * (zeta * zeta * zeta)); [ring|]. rewrite Hz3. ring. }
    rewrite E. destruct (Nat.modulo i 3) as [|[|[|m]]]; [ring|ring|ring|lia].
  Qed.
  Lemma distribute_length into (l : list K) : length (distribute_powers_zeta zeta into l) = length l.
  Proof. unfold distribute_powers_zeta. rewrite map_length, seq_length. reflexivity. Qed.
  Lemma distribute_eval into (l : list K) x : eval (distribute_powers_zeta zeta into l) x = eval l ((if into then zeta else zeta * zeta) * x).
  Proof.
    rewrite (eval_coeffs K _ x (length l)) by (rewrite distribute_length; lia). unfold eval. f_equal. apply map_ext. intros i. rewrite distribute_coeff, fpow_mul_base. ring.
  Qed.

  Variables (small : bool) (sched : scheduler) (it : item K).
  Hypothesis Hsched : schedules sched.
  Hypothesis Hit : complete_item small false e (gen e) it.
  Lemma to_extended (poly : list K) : (length poly <= 2 ^ e)%nat -> extended_column threads sched ext it zeta poly = Some (values_on poly zeta (gen e) (2 ^ e)).
  Proof.
    intros HL. unfold extended_column, coeff_to_extended. destruct (rdom_ok K adicity root e 1 ext Had Hroot ltac:(lia) Hext) as [Oe Pe]. rewrite (do_size _ _ _ _ _ Oe).
    destruct (fft_correct K adicity root e 1 ext small threads sched it (distribute_powers_zeta zeta true poly) Had Hroot ltac:(lia) Hext ltac:(lia) Hsched Hit) as [F1 [F2 _]].
    destruct poly as [|c poly].
    - change (distribute_powers_zeta zeta true []) with ([] : list K) in *. rewrite F2. f_equal. unfold vec_resize, values_on. rewrite firstn_nil. cbn [app length]. rewrite Nat.sub_0_r.
      apply (zeros_values (fun i => zeta * gen e ^ i)).
    - rewrite F1; [|rewrite distribute_length; exact HL|intros E; apply (f_equal (@length K)) in E; rewrite distribute_length in E; discriminate].
      f_equal. transitivity (values_on (distribute_powers_zeta zeta true (c :: poly)) 1 (gen e) (2 ^ e)).
      + rewrite <- (resize_same 0 (values_on (distribute_powers_zeta zeta true (c :: poly)) 1 (gen e) (2 ^ e))) at 2. f_equal. unfold values_on. rewrite !map_length, !seq_length. reflexivity.
      + unfold values_on. apply map_ext. intros i. rewrite distribute_eval. f_equal. ring.
  Qed.
  Lemma to_coeff (evals : list K) : length evals = (2 ^ e)%nat ->
    exists h, extended_to_coeff threads sched ext it zeta evals = Some h /\ (length h <= 2 ^ e)%nat /\ values_on h zeta (gen e) (2 ^ e) = evals.
  Proof.
    intros HL. unfold extended_to_coeff. destruct (rdom_ok K adicity root e 1 ext Had Hroot ltac:(lia) Hext) as [Oe Pe]. rewrite (do_size _ _ _ _ _ Oe), HL, Nat.eqb_refl. cbn [negb].
    destruct (ifft_correct K adicity root e 1 ext small threads sched it evals Had Hroot ltac:(lia) Hext ltac:(lia) Hsched Hit HL) as (f & -> & _ & Hf & Hv).
    eexists. split; [reflexivity|]. split; [rewrite distribute_length; exact Hf|]. rewrite <- Hv. unfold values_on. apply map_ext. intros i. rewrite distribute_eval. f_equal.
    transitivity (zeta * zeta * zeta * gen e ^ i); [ring|]. rewrite Hz3. ring.
  Qed.
End Ext.
