(** Proofs: Lagrange coefficients over a range of rows that may wrap around, and the auxiliary values of the verifier. *)
From Coq Require Import ZArith List Arith Lia Bool Ring Field Field_theory.
From Verif Require Import Field ParallelizeModel ParallelizeProof ParallelizeExtra SemigroupModel SemigroupProof SemigroupExtra FFTProof3 PolyModel PolySpec PolyProof PolyProof3 FFTModel FFTSpec FFTProof FFTProof4 FFTProof5 FFTExtra DomainModel DomainSpec DomainProof
  BigIntModel FriProof ExprModel GrandProductModel GrandProductSpec LogDerivModel LogDerivProof2 VanishingModel VanishingSpec VanishingProof4.
Import ListNotations.

Section Wrap.
  Variable K : fld.
  Add Field Kvan6 : (fld_theory K).
  Open Scope fld_scope.

  Lemma pow_mod_n (g : K) n i : g ^ n = 1 -> (0 < n)%nat -> g ^ (i mod n) = g ^ i.
  Proof. intros Hg Hn. rewrite (Nat.div_mod i n) at 2 by lia. rewrite fpow_add, fpow_mul, Hg, fpow_one. ring. Qed.
  Lemma element_Z (d : domain K) k g h from : (k < 62)%nat -> dom_ok K k g h d -> primitive_root g (2 ^ k) -> (Z.abs from < 2 ^ 62)%Z ->
    get_element d from = h * g ^ Z.to_nat (from mod Z.of_nat (2 ^ k)).
  Proof.
    intros Hk HD HP Hf. unfold get_element. rewrite (do_gen _ _ _ _ _ HD), (do_ginv _ _ _ _ _ HD), (do_off _ _ _ _ _ HD).
    set (n := (2 ^ k)%nat) in *. assert (Hn : (0 < n)%nat) by (apply Nat.neq_0_lt_0, Nat.pow_nonzero; lia). destruct HP as [Hg _].
    assert (E : (if (0 <? from)%Z then do_pow 1 fmul (fun y => y * y) [from] g else do_pow 1 fmul (fun y => y * y) [(- from)%Z] (finv g)) = g ^ Z.to_nat (from mod Z.of_nat n)).
    { destruct (Z.ltb_spec 0 from).
      - rewrite do_pow_fpow by lia. rewrite <- (pow_mod_n g n (Z.to_nat from) Hg Hn). f_equal. rewrite Z2Nat.inj_mod, Nat2Z.id by lia. reflexivity.
      - rewrite do_pow_fpow by lia. assert (Hg0 : g <> 0). { intros E. rewrite E in Hg. destruct n as [|m]; [lia|]. rewrite fpow_S in Hg. apply (f1_neq_0 K). rewrite <- Hg. ring. }
        rewrite fpow_finv by exact Hg0. set (a := Z.to_nat (- from)). set (b := Z.to_nat (from mod Z.of_nat n)).
        assert (EB : ((a + b) mod n = 0)%nat).
        { apply Nat2Z.inj. rewrite Nat2Z.inj_mod, Nat2Z.inj_add. unfold a, b. rewrite !Z2Nat.id by (try apply Z.mod_pos_bound; lia). rewrite Zplus_mod_idemp_r. replace (- from + from)%Z with 0%Z by ring. apply Zmod_0_l. }
        assert (EP : g ^ a * g ^ b = 1). { rewrite <- fpow_add, <- (pow_mod_n g n _ Hg Hn), EB. reflexivity. }
        transitivity (finv (g ^ a) * (g ^ a * g ^ b)); [rewrite EP; ring|]. field. apply fpow_neq0. exact Hg0. }
    rewrite E. destruct (feqb h 1) eqn:Eh; [apply feqb_eq in Eh; rewrite Eh|]; ring.
  Qed.
  Lemma find_tau_wrap (g h tau : K) n : primitive_root g n -> h <> 0 -> (0 < n)%nat -> forall m, (m < n)%nat -> tau = h * g ^ m -> forall todo i, (todo <= n)%nat ->
    find_tau g tau (h * g ^ i) todo = map (fun j => if Nat.eqb (j mod n) m then 1 else 0) (seq i todo).
  Proof.
    intros HP Hh Hn m Hm Et. induction todo as [|todo IH]; intros i Hi; cbn [find_tau seq map]; [reflexivity|].
    assert (Ei : h * g ^ i = h * g ^ (i mod n)) by (rewrite (pow_mod_n g n i (proj1 HP) Hn); reflexivity).
    destruct (Nat.eqb_spec (i mod n) m) as [Em|Hne].
    - rewrite Ei, Em, Et, feqb_refl. f_equal.
      assert (W : forall t c, (t < n)%nat -> (forall j, (c <= j < c + t)%nat -> (j mod n <> m)%nat) -> repeat 0 t = map (fun j => if Nat.eqb (j mod n) m then 1 else 0 : K) (seq c t)).
      { clear. induction t as [|t IH]; intros c Ht Hc; cbn [repeat seq map]; [reflexivity|]. rewrite (proj2 (Nat.eqb_neq _ _) (Hc c ltac:(lia))). f_equal. apply IH; [lia|]. intros j Hj. apply Hc. lia. }
      apply W; [lia|]. intros j Hj E. rewrite <- Em in E. pose proof (Nat.div_mod j n ltac:(lia)). pose proof (Nat.div_mod i n ltac:(lia)).
      assert (j / n = i / n)%nat; [|nia]. nia.
    - replace (feqb (h * g ^ i) tau) with false.
      2:{ symmetry. apply feqb_neq. intros E. apply Hne. apply (primitive_inj K g h n); auto; [apply Nat.mod_upper_bound; lia|]. rewrite <- Ei, E. exact Et. }
      f_equal. replace (h * g ^ i * g) with (h * g ^ S i) by (rewrite fpow_S; ring). apply IH. lia.
  Qed.
  Lemma partial_lagrange_wrap threads d k g h tau (from : Z) (size : nat) : (0 < threads < 128)%Z -> (k < 62)%nat -> dom_ok K k g h d ->
    primitive_root g (2 ^ k) -> (size <= 2 ^ k)%nat -> (Z.abs from < 2 ^ 62)%Z ->
    partial_lagrange threads d tau from size =
    Some (map (fun i => lagrange_basis (coset_points h g (2 ^ k)) tau (Z.to_nat ((from + Z.of_nat i) mod Z.of_nat (2 ^ k)))) (seq 0 size)).
  Proof.
    intros Ht Hk HD HP Hr Hf. pose proof (pow2_small k Hk) as Hb. pose proof (pow2_1 k) as Hp1.
    pose proof (do_off_nz _ _ _ _ _ HD) as Hh. pose proof (do_elem_nz _ _ _ _ _ HD) as Hn.
    unfold partial_lagrange. rewrite (do_size _ _ _ _ _ HD). replace (Nat.ltb (2 ^ k) size) with false by (symmetry; apply Nat.ltb_ge; lia).
    destruct (Nat.eqb_spec size 0) as [->|Hs]; [reflexivity|]. cbv zeta.
    rewrite (vanishing_spec' K d k g h) by auto. rewrite (element_Z d k g h) by auto.
    rewrite (do_gen _ _ _ _ _ HD), (do_ginv _ _ _ _ _ HD), (do_elem _ _ _ _ _ HD), (do_opow _ _ _ _ _ HD).
    set (n := (2 ^ k)%nat) in *. set (a := Z.to_nat (from mod Z.of_nat n)).
    assert (Ea : forall j, Z.to_nat ((from + Z.of_nat j) mod Z.of_nat n) = ((a + j) mod n)%nat).
    { intros j. rewrite <- (Nat2Z.id ((a + j) mod n)). f_equal. rewrite Nat2Z.inj_mod, Nat2Z.inj_add. unfold a. rewrite Z2Nat.id by (apply Z.mod_pos_bound; lia). rewrite Zplus_mod_idemp_l. reflexivity. }
    rewrite (map_ext _ (fun j => lagrange_basis (coset_points h g n) tau ((a + j) mod n))) by (intros j; rewrite Ea; reflexivity).
    destruct (feqb (tau ^ n - h ^ n) 0) eqn:Ez.
    - apply feqb_eq in Ez. apply (vanishing_zero K h g n tau ltac:(lia) HP Hh) in Ez. apply in_map_iff in Ez. destruct Ez as (m & Em & Hm). apply in_seq in Hm.
      rewrite (find_tau_wrap g h tau n HP Hh ltac:(lia) m ltac:(lia) (eq_sym Em) size a Hr). f_equal. rewrite <- (map_add_seq a size), map_map. apply map_ext_in. intros i Hi.
      rewrite <- Em. rewrite (basis_inside K) by (auto; try lia; apply Nat.mod_upper_bound; lia). reflexivity.
    - assert (Hz : tau ^ n - h ^ n <> 0) by (apply feqb_neq; exact Ez). set (z := tau ^ n - h ^ n) in *.
      pose proof (primitive_neq0 K g n ltac:(lia) HP) as Hg.
      assert (Hw : h * g ^ a <> 0) by (apply (point_neq0 K h g n); auto; lia). set (w := h * g ^ a) in *.
      assert (Hzw : z * w <> 0) by (apply fmul_neq0; auto). rewrite (proj2 (feqb_neq K _ _) Hzw).
      set (l := finv (z * w) * (fnat n * h ^ n)).
      rewrite (parallelize_pointwise (fun j => l * finv g ^ j * (tau - w * g ^ j))).
      + rewrite repeat_length. rewrite batch_inverse_spec; auto.
        * f_equal. rewrite map_map.
          apply map_ext_in. intros j Hj. apply in_seq in Hj.
          destruct (basis_outside K h g n tau ((a + j) mod n) ltac:(apply Nat.mod_upper_bound; lia) HP Hh Hn Hz) as [Hd ->].
          assert (Ew : w * g ^ j = h * g ^ ((a + j) mod n)) by (rewrite (pow_mod_n g n _ (proj1 HP) ltac:(lia)); unfold w; rewrite fpow_add; ring). rewrite <- Ew in *.
          assert (Hgi : finv g ^ j = finv (g ^ j)) by (apply fpow_finv; auto). rewrite Hgi.
          pose proof (fpow_neq0 K g j Hg) as Hgj. assert (Hhn : h ^ n <> 0) by (apply fpow_neq0; auto).
          assert (Hl : l * finv (g ^ j) * (tau - w * g ^ j) <> 0).
          { unfold l. repeat apply fmul_neq0; auto; apply finv_neq0; auto. }
          unfold inv_of. rewrite (proj2 (feqb_neq K _ _) Hl). unfold l. fold z. field. auto 10.
        * rewrite map_length, seq_length. lia.
      + lia.
      + rewrite repeat_length. lia.
      + intros i c s. apply inverses_length.
      + intros i c s Hi Hc Hs' Hl. rewrite repeat_length in Hl. assert (0 <= i * c)%Z by nia.
        rewrite trunc_small by lia. rewrite !do_pow_fpow by lia. rewrite <- (inverses_spec K g (finv g) tau (length s) l w).
        f_equal. ring.
  Qed.
End Wrap.

Section Aux.
  Variable K : fld.
  Add Field Kvan7 : (fld_theory K).
  Open Scope fld_scope.
  Variables (adicity : nat) (root : K).
  Hypothesis Had : (adicity < 62)%nat.
  Hypothesis Hroot : primitive_root root (2 ^ adicity).
  Notation gen := (generator adicity root).
  Variables (k : nat) (d : domain K).
  Hypothesis Hk : (k <= adicity)%nat.
  Hypothesis Hd : radix2_domain adicity root k 1 d.
  Variables (threads : Z) (small : bool) (sched : scheduler) (it : item K).
  Hypothesis Hth : (0 < threads < 128)%Z.
  Hypothesis Hsched : schedules sched.
  Hypothesis Hit : complete_item small false k (gen k) it.
  Notation n := (2 ^ k)%nat.
  Notation w := (gen k).
  Notation L x := (lagrange_basis (coset_points 1 w n) x).
  Variable bf : nat.
  Hypothesis Hbf : (bf + 2 <= n)%nat.
  Notation u := (n - (bf + 1))%nat.

  Lemma f1_eval (x : K) : eval [1] x = 1. Proof. rewrite eval_cons, eval_nil. ring. Qed.
  Lemma fold_sum (l : list K) a : fold_left (fun acc e => acc + e) l a = a + fsum l.
  Proof. revert a. induction l as [|x l IH]; intros a; cbn [fold_left fsum]; [ring|]. rewrite IH. ring. Qed.
  Lemma w_prim : primitive_root w n.
  Proof. apply (gen_primitive K adicity root ltac:(lia) Hroot). exact Hk. Qed.
  Lemma of_values (f : list K) (c : nat -> K) x : (length f <= n)%nat -> values_on f 1 w n = map c (seq 0 n) -> eval f x = fsum (map (fun i => c i * L x i) (seq 0 n)).
  Proof.
    intros HL E. rewrite <- (basis_interpolates K 1 w k x f w_prim (f1_neq_0 K) HL). apply fsum_map_ext. intros i Hi. apply in_seq in Hi. f_equal.
    apply (f_equal (fun l => nth i l 0)) in E. unfold values_on in E. rewrite !(nth_tab_from K) in E by lia. exact E.
  Qed.
  Lemma sum_L x : fsum (map (L x) (seq 0 n)) = 1.
  Proof.
    transitivity (eval [1] x); [|apply f1_eval]. symmetry. rewrite (of_values [1] (fun _ => 1) x).
    - apply fsum_map_ext. intros i _. ring.
    - cbn [length]. lia.
    - unfold values_on. apply map_ext. intros i. apply f1_eval.
  Qed.
  Lemma sum_one (m : nat) x : (m < n)%nat -> fsum (map (fun i => (if Nat.eqb i m then 1 else 0) * L x i) (seq 0 n)) = L x m.
  Proof.
    intros Hm. replace n with (m + (1 + (n - m - 1)))%nat by lia. rewrite seq_app, map_app, fsum_app. cbn [plus seq map fsum]. rewrite Nat.eqb_refl.
    rewrite !fsum_map_zero; [ring| |]; intros i Hi; apply in_seq in Hi; rewrite (proj2 (Nat.eqb_neq _ _)) by lia; ring.
  Qed.
  Definition blind_at (x : K) : K := fsum (map (L x) (seq (u + 1) bf)).
  Lemma split_sum x : fsum (map (L x) (seq 0 u)) = 1 - (L x u + blind_at x).
  Proof.
    pose proof (sum_L x) as E. unfold blind_at. replace (seq 0 n) with (seq 0 u ++ seq u 1 ++ seq (u + 1) bf) in E by (rewrite <- !seq_app; f_equal; lia).
    rewrite !map_app, !fsum_app in E. cbn [seq map fsum] in E. rewrite <- E at 2. ring.
  Qed.
  Lemma map_shift a m s : map (fun i => a + i)%nat (seq s m) = seq (a + s) m.
  Proof. revert s. induction m as [|b IH]; intros s; [reflexivity|]. cbn [seq map]. f_equal. rewrite IH. f_equal. lia. Qed.
  Lemma zeros_tab m s : repeat (0 : K) m = map (fun _ : nat => 0 : K) (seq s m).
  Proof. revert s. induction m as [|a IH]; intros s; [reflexivity|]. cbn [repeat seq map]. f_equal. apply IH. Qed.
  Lemma one_hot m : (m < n)%nat -> set_nth m (1 : K) (repeat 0 n) = map (fun i => if Nat.eqb i m then 1 else 0) (seq 0 n).
  Proof.
    intros Hm. replace (repeat (0 : K) n) with (map (fun _ : nat => 0 : K) (seq 0 n)) by (symmetry; apply zeros_tab).
    rewrite (set_nth_tab (fun _ => 0 : K) n m 1 Hm). reflexivity.
  Qed.
  Lemma key_spec sigmas : exists key, make_key threads sched d it bf sigmas = Some key /\ key_sigmas key = sigmas /\
    (length (key_first key) <= n /\ length (key_last key) <= n /\ length (key_active key) <= n)%nat /\
    forall x, eval (key_first key) x = L x 0 /\ eval (key_last key) x = L x u /\ eval (key_active key) x = 1 - (L x u + blind_at x).
  Proof.
    unfold make_key. destruct (rdom_ok K adicity root k 1 d Had Hroot Hk Hd) as [Ok _]. rewrite (do_size _ _ _ _ _ Ok).
    assert (HI : forall c, exists f, ifft threads sched d it (map c (seq 0 n)) = Some f /\ (length f <= n)%nat /\ forall x, eval f x = fsum (map (fun i => c i * L x i) (seq 0 n))).
    { intros c. destruct (ifft_correct K adicity root k 1 d small threads sched it (map c (seq 0 n)) Had Hroot Hk Hd ltac:(lia) Hsched Hit ltac:(rewrite map_length, seq_length; reflexivity)) as (f & E & _ & HL & HV).
      exists f. split; [exact E|]. split; [exact HL|]. intros x. apply of_values; assumption. }
    rewrite !one_hot by lia. destruct (HI (fun i => if Nat.eqb i 0 then 1 else 0)) as (f & -> & Lf & Ef). destruct (HI (fun i => if Nat.eqb i u then 1 else 0)) as (l & -> & Ll & El).
    destruct (HI (fun i => if Nat.ltb i u then 1 else 0)) as (a & -> & La & Ea). eexists. split; [reflexivity|]. cbn [key_sigmas key_first key_last key_active]. split; [reflexivity|]. split; [auto|].
    intros x. rewrite Ef, El, Ea. rewrite !sum_one by lia. split; [reflexivity|]. split; [reflexivity|]. rewrite <- split_sum.
    replace (seq 0 n) with (seq 0 u ++ seq u (bf + 1)) by (rewrite <- seq_app; f_equal; lia). rewrite map_app, fsum_app. rewrite (fsum_map_zero K _ (seq u (bf + 1))).
    - rewrite (fsum_map_ext K _ (L x)); [ring|]. intros i Hi. apply in_seq in Hi. replace (Nat.ltb i u) with true by (symmetry; apply Nat.ltb_lt; lia). ring.
    - intros i Hi. apply in_seq in Hi. replace (Nat.ltb i u) with false by (symmetry; apply Nat.ltb_ge; lia). ring.
  Qed.
  Lemma aux_spec x : aux_values threads d bf x = Some (L x 0, blind_at x, L x u).
  Proof.
    unfold aux_values. destruct (rdom_ok K adicity root k 1 d Had Hroot Hk Hd) as [Ok Pk]. pose proof (pow2_small k ltac:(lia)) as Hb.
    rewrite (partial_lagrange_wrap K threads d k w 1) by (auto; lia).
    set (F := fun i => L x (Z.to_nat ((- Z.of_nat (bf + 1) + Z.of_nat i) mod Z.of_nat n))).
    assert (FE : forall i, (i < bf + 1)%nat -> F i = L x (u + i)).
    { intros i Hi. unfold F. f_equal. rewrite <- (Z.mod_unique (- Z.of_nat (bf + 1) + Z.of_nat i) (Z.of_nat n) (-1) (Z.of_nat (u + i))); lia. }
    assert (F1 : F (bf + 1)%nat = L x 0) by (unfold F; do 2 f_equal; replace (- Z.of_nat (bf + 1) + Z.of_nat (bf + 1))%Z with 0%Z by ring; rewrite Zmod_0_l; reflexivity).
    rewrite (tab_nth F (bf + 2) (1 + bf)) by lia. rewrite (tab_nth F (bf + 2) 0) by lia. rewrite (Nat.add_comm 1 bf), F1, FE, Nat.add_0_r by lia. do 3 f_equal.
    unfold slice. rewrite (slice_tab F) by lia. unfold blind_at.
    rewrite (fold_sum (map F (seq 1 bf)) 0). transitivity (fsum (map F (seq 1 bf))); [ring|].
    replace (seq (u + 1) bf) with (map (fun i => u + i)%nat (seq 1 bf)).
    - rewrite map_map. apply fsum_map_ext. intros i Hi. apply in_seq in Hi. apply FE. lia.
    - apply map_shift.
  Qed.
  (** On the rows of the domain. *)
  Lemma L_row j i : (j < n)%nat -> (i < n)%nat -> L (w ^ j) i = if Nat.eqb i j then 1 else 0.
  Proof.
    intros Hj Hi. replace (w ^ j) with (1 * w ^ j) by ring. apply basis_inside; auto using w_prim, f1_neq_0. apply (fnat_pow2_prim K w). apply w_prim.
  Qed.
  Lemma first_on j : (j < n)%nat -> L (w ^ j) 0 = first_row j.
  Proof. intros Hj. rewrite L_row by lia. unfold first_row. rewrite Nat.eqb_sym. reflexivity. Qed.
  Lemma last_on j : (j < n)%nat -> L (w ^ j) u = last_row u j.
  Proof. intros Hj. rewrite L_row by lia. unfold last_row. rewrite Nat.eqb_sym. reflexivity. Qed.
  Lemma blind_on j : (j < n)%nat -> blind_at (w ^ j) = blind_row u j.
  Proof.
    intros Hj. unfold blind_at, blind_row. rewrite (fsum_map_ext K _ (fun i => if Nat.eqb i j then 1 else 0)) by (intros i Hi; apply in_seq in Hi; apply L_row; lia).
    destruct (Nat.ltb_spec u j) as [H|H].
    - replace (seq (u + 1) bf) with (seq (u + 1) ((j - (u + 1)) + (1 + (n - 1 - j)))) by (f_equal; lia). rewrite seq_app, map_app, fsum_app. replace (u + 1 + (j - (u + 1)))%nat with j by lia. cbn [plus seq map fsum]. rewrite Nat.eqb_refl.
      rewrite !fsum_map_zero; [ring| |]; intros i Hi; apply in_seq in Hi; rewrite (proj2 (Nat.eqb_neq _ _)) by lia; reflexivity.
    - apply fsum_map_zero. intros i Hi. apply in_seq in Hi. rewrite (proj2 (Nat.eqb_neq _ _)) by lia. reflexivity.
  Qed.
End Aux.
