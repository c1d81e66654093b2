(** The vanishing argument: the extended circuit column against the verifier, the round trip to the extended domain, and a circuit over GF(97) that meets the hypotheses of the theorems. *)
From Coq Require Import ZArith List Arith Lia Bool Permutation Ring Field Field_theory.
From Verif Require Import Field Zp BigIntModel BigIntSpec FFTModel FFTSpec FFTExtra FFTProof5 PolyModel PolySpec PolyProof PolyProof3 DomainModel DomainSpec ExprModel ExprSpec GrandProductModel GrandProductSpec BatchProps LookupProps
  VanishingModel VanishingSpec VanishingProof VanishingProof4 VanishingProof5 VanishingProof6 VanishingProof7.
Import ListNotations.

Section Extra.
  Variable K : fld.
  Add Field Kvan12 : (fld_theory K).
  Open Scope fld_scope.
  Variables (adicity : nat) (root : K).
  Hypothesis Had : (adicity < 62)%nat.
  Hypothesis Hroot : primitive_root root (2 ^ adicity).
  Variables (k : nat) (d : domain K).
  Hypothesis Hk : (k <= adicity)%nat.
  Hypothesis Hk30 : (k <= 30)%nat.
  Hypothesis Hd : radix2_domain adicity root k 1 d.
  Variable threads : Z.
  Hypothesis Hth : (0 < threads < 128)%Z.
  Variable bf : nat.
  Hypothesis Hbf : (bf + 2 <= 2 ^ k)%nat.
  Variables (sys : constraint_system K) (delta : K) (sigmas sigma_cols : list (list K)).
  Hypothesis Hsig : Forall2 (interpolates (generator adicity root k) (2 ^ k)) sigmas sigma_cols.
  Variables (e : nat) (ext : domain K).
  Hypothesis Hke : (k <= e <= adicity)%nat.
  Hypothesis Hext : radix2_domain adicity root e 1 ext.
  Variable zeta : K.
  Hypothesis Hz3 : zeta * zeta * zeta = 1.
  Hypothesis Hz1 : zeta <> 1.
  Variables (small : bool) (sched : scheduler) (it : item K).
  Hypothesis Hsched : schedules sched.
  Hypothesis Hit : complete_item small false k (generator adicity root k) it.

  Lemma column_verifier ch ws cols : ws <> [] -> Forall2 (witness_interpolates (generator adicity root k) (2 ^ k)) ws cols -> Forall (shaped sys (2 ^ k) sigmas) ws ->
    exists key column, make_key threads sched d it bf sigmas = Some key /\ build_extended_circuit_column threads sched d ext it sys key bf ch delta zeta ws = Some column /\
      length column = (2 ^ e)%nat /\
      forall p, (p < 2 ^ e)%nat -> let x := zeta * generator adicity root e ^ p in
        evaluate_h threads d sys bf ch delta x (map (fun wit => evaluations_at (generator adicity root k) (2 ^ k) bf sigmas wit x) ws) = Some (nth p column 0 * finv (x ^ (2 ^ k) - 1)).
  Proof.
    intros Hn HW HS. destruct (column K adicity root Had Hroot k d Hk Hk30 Hd threads Hth bf Hbf sys delta sigmas sigma_cols Hsig e ext Hke Hext zeta Hz3 small sched it Hsched Hit ch ws cols Hn HW HS) as (key & E1 & E2).
    exists key. eexists. split; [exact E1|]. split; [exact E2|]. split; [rewrite map_length, seq_length; reflexivity|].
    intros p Hp x. rewrite (evaluate_h_spec K adicity root Had Hroot k d Hk Hk30 Hd threads Hth bf Hbf).
    assert (Hx : x ^ (2 ^ k) <> 1) by (apply (coset_outside K adicity root Had Hroot k e Hke zeta Hz3 Hz1)).
    destruct (feqb (x ^ (2 ^ k) - 1) 0) eqn:EB. { exfalso. apply feqb_eq in EB. exact (Hx (proj1 (fsub_eq0 K _ _) EB)). }
    f_equal. f_equal. unfold x at 1. rewrite (nth_indep _ 0 (Tot K adicity root k bf sys delta sigmas ch ws (zeta * generator adicity root e ^ 0))) by (rewrite map_length, seq_length; exact Hp).
    rewrite (map_nth (fun p => Tot K adicity root k bf sys delta sigmas ch ws (zeta * generator adicity root e ^ p))). rewrite seq_nth by exact Hp. reflexivity.
  Qed.

  Variable small_ext : bool.
  Variable it_ext : item K.
  Hypothesis Hit_ext : complete_item small_ext false e (generator adicity root e) it_ext.
  Lemma extended_round_trip poly : (length poly <= 2 ^ e)%nat ->
    exists evals back, extended_column threads sched ext it_ext zeta poly = Some evals /\ evals = values_on poly zeta (generator adicity root e) (2 ^ e) /\
      extended_to_coeff threads sched ext it_ext zeta evals = Some back /\ forall x, eval back x = eval poly x.
  Proof.
    intros HL. pose proof (to_extended K adicity root Had Hroot k e ext Hke Hext zeta Hz3 threads Hth small_ext sched it_ext Hsched Hit_ext poly HL) as E1.
    destruct (to_coeff K adicity root Had Hroot k e ext Hke Hext zeta Hz3 threads Hth small_ext sched it_ext Hsched Hit_ext (values_on poly zeta (generator adicity root e) (2 ^ e))) as (h & E2 & L2 & V2).
    { unfold values_on. rewrite map_length, seq_length. reflexivity. }
    exists (values_on poly zeta (generator adicity root e) (2 ^ e)), h. split; [exact E1|]. split; [reflexivity|]. split; [exact E2|].
    assert (Pe : primitive_root (generator adicity root e) (2 ^ e)) by (apply (proj2 (rdom_ok K adicity root e 1 ext Had Hroot (proj2 Hke) Hext))).
    apply (VanishingProof4.same_function K h poly (coset_points zeta (generator adicity root e) (2 ^ e))).
    - apply points_nodup; [exact Pe|]. intros E. rewrite E in Hz3. apply (f1_neq_0 K). rewrite <- Hz3. ring.
    - unfold coset_points. rewrite map_length, seq_length. exact L2.
    - unfold coset_points. rewrite map_length, seq_length. exact HL.
    - intros x Hx. unfold coset_points in Hx. apply in_map_iff in Hx. destruct Hx as (i & <- & Hi). unfold values_on in V2.
      exact (proj1 map_ext_in_iff V2 i Hi).
  Qed.
End Extra.

(** ** A circuit over GF(97), 96 = 3 * 2^5: four rows, two of them usable, one gate q (a b - c), one column in the permutation, one lookup. *)
Lemma root97 : primitive_root (m97 28) (2 ^ 5).
Proof.
  split; [apply zp_eq; vm_compute; reflexivity|]. intros i Hi E. apply (f_equal (zval 97)) in E.
  assert (B : forallb (fun i => negb (Z.eqb (zval 97 (m97 28 ^ i)%fld) 1)) (seq 1 31) = true) by (vm_compute; reflexivity).
  rewrite forallb_forall in B. specialize (B i). rewrite E in B. assert (false = true); [|discriminate]. apply B. apply in_seq. cbn in Hi. lia.
Qed.
Definition l97 (l : list Z) : list F97 := map m97 l.
Definition q97 := l97 [49; 19; 0; 30]%Z. Definition a97 := l97 [77; 94; 72; 50]%Z. Definition b97 := l97 [27; 3; 24; 47]%Z. Definition c97 := l97 [30; 65; 71; 36]%Z.
Definition sys97 : constraint_system F97 :=
  {| sys_gates := [EProd (EFixed 0 0) (ESum (EProd (EAdvice 0 0) (EAdvice 1 0)) (ENeg (EAdvice 2 0)))]; sys_columns := [AnyAdvice 0]; sys_lookups := [([EAdvice 0 0], [EAdvice 0 0])]; sys_minimum := 1 |}.
Definition wit97 : witness F97 :=
  {| wit_table := {| t_fixed := [q97]; t_advice := [a97; b97; c97]; t_instance := []; t_challenges := [] |}; wit_products := [[1%fld]]; wit_lookups := [([1%fld], a97, a97)] |}.
Definition sigmas97 : list (list F97) := [[0%fld; 1%fld]].
Definition col97 (p : list F97) : list F97 := map (fun j => eval p (generator 5 (m97 28) 2 ^ j)%fld) (seq 0 4).
Definition cols97 : witness F97 :=
  {| wit_table := {| t_fixed := map col97 [q97]; t_advice := map col97 [a97; b97; c97]; t_instance := []; t_challenges := [] |}; wit_products := map col97 [[1%fld]];
     wit_lookups := [(col97 [1%fld], col97 a97, col97 a97)] |}.
Definition ch97 : challenges F97 := {| ch_theta := m97 3; ch_beta := m97 10; ch_gamma := m97 20; ch_y := m97 31 |}.
Lemma circuit97 : map (map (zval 97)) (t_advice (wit_table cols97)) = [[2; 3; 5; 7]; [4; 5; 1; 1]; [8; 15; 0; 0]]%Z /\ map (map (zval 97)) (t_fixed (wit_table cols97)) = [[1; 1; 0; 0]]%Z /\ compute_degree sys97 = 4%nat.
Proof. vm_compute. auto. Qed.
Lemma interpolates97 : Forall2 (interpolates (generator 5 (m97 28) 2) (2 ^ 2)) sigmas97 (map col97 sigmas97) /\ Forall2 (witness_interpolates (generator 5 (m97 28) 2) (2 ^ 2)) [wit97] [cols97].
Proof.
  assert (HI : forall p : list F97, (length p <= 4)%nat -> interpolates (generator 5 (m97 28) 2) (2 ^ 2) p (col97 p)) by (intros p Hp; split; [exact Hp|reflexivity]).
  split; [repeat constructor; apply HI; cbn; lia|]. constructor; [|constructor].
  split; [split; [|split; [|split]]|split]; cbn [wit97 cols97 wit_table t_fixed t_advice t_instance t_challenges wit_products wit_lookups map]; repeat (constructor; [first [apply HI; cbn; lia|cbn [fst snd]; split; [|split]; apply HI; cbn; lia]|]); try constructor; reflexivity.
Qed.
Lemma shaped97 : Forall (shaped sys97 (2 ^ 2) sigmas97) [wit97].
Proof. constructor; [|constructor]. unfold shaped. repeat split; repeat constructor; cbn; auto; lia. Qed.
Lemma all_zero (l : list F97) : forallb (fun x => feqb x 0%fld) l = true -> Forall (fun x => x = 0%fld) l.
Proof. intros H. apply Forall_forall. intros x Hx. apply feqb_eq. rewrite forallb_forall in H. exact (H x Hx). Qed.
Lemma satisfied97 y : Forall (satisfied sys97 (with_y ch97 y) (m97 5) (generator 5 (m97 28) 2) (2 ^ 2) 1 (map col97 sigmas97)) [cols97].
Proof. constructor; [|constructor]. intros j Hj. apply all_zero. do 4 (destruct j as [|j]; [vm_compute; reflexivity|]). cbn in Hj. lia. Qed.
Lemma domain97 k : (k <= 5)%nat -> exists d it, radix2_domain 5 (m97 28) k 1%fld d /\ complete_item true false k (generator 5 (m97 28) k) it /\ build_item true 3 backwards d false = Some it.
Proof.
  intros Hk. destruct (create_domain 5 (m97 28) (2 ^ k)) as [d|] eqn:E.
  - assert (R : radix2_domain 5 (m97 28) k 1%fld d) by (exists d; split; [exact E|left; auto]).
    destruct (fresh_item F97 5 (m97 28) k 1%fld d true 3 backwards false ltac:(lia) root97 Hk R ltac:(lia) backwards_ok) as (it & E2 & H). exists d, it. auto.
  - exfalso. pose proof (create_spec F97 5 (m97 28) (2 ^ k) ltac:(lia) root97) as C. rewrite E in C.
    assert (HP : (2 ^ k <= 2 ^ 5)%nat) by (apply Nat.pow_le_mono_r; lia). specialize (C ltac:(change (2 ^ 5)%nat with 32%nat in HP; lia)). lia.
Qed.

Lemma verifier_aborts (K : fld) (adicity : nat) (root : K) (k : nat) (d : domain K) (threads : Z) (bf : nat) (sys : constraint_system K) (delta : K) (sigmas : list (list K))
    (ch : challenges K) (ws : list (witness K)) (x : K) :
  (adicity < 62)%nat -> primitive_root root (2 ^ adicity) -> (k <= adicity)%nat -> (k <= 30)%nat -> radix2_domain adicity root k 1%fld d -> (0 < threads < 128)%Z -> (bf + 2 <= 2 ^ k)%nat ->
  evaluate_h threads d sys bf ch delta x (map (fun wit => evaluations_at (generator adicity root k) (2 ^ k) bf sigmas wit x) ws) = None <-> (x ^ (2 ^ k) = 1)%fld.
Proof.
  intros Ha Hr Hk Hk30 Hd Hth Hbf. rewrite (evaluate_h_spec K adicity root Ha Hr k d Hk Hk30 Hd threads Hth bf Hbf). destruct (feqb (x ^ (2 ^ k) - 1)%fld 0%fld) eqn:E.
  - apply feqb_eq in E. split; [intros _; exact (proj1 (fsub_eq0 K _ _) E)|reflexivity].
  - split; [discriminate|]. intros EQ. apply (proj2 (fsub_eq0 K _ _)) in EQ. apply feqb_eq in EQ. congruence.
Qed.
Lemma lagrange_wrap (K : fld) (threads : Z) (d : domain K) (adicity : nat) (root : K) (k : nat) (h tau : K) (from : Z) (size : nat) :
  (adicity < 62)%nat -> primitive_root root (2 ^ adicity) -> (k <= adicity)%nat -> radix2_domain adicity root k h d -> (0 < threads < 128)%Z -> (size <= 2 ^ k)%nat -> (Z.abs from < 2 ^ 62)%Z ->
  partial_lagrange threads d tau from size =
  Some (map (fun i => lagrange_basis (coset_points h (generator adicity root k) (2 ^ k)) tau (Z.to_nat ((from + Z.of_nat i) mod Z.of_nat (2 ^ k)))) (seq 0 size)).
Proof.
  intros Ha Hr Hk Hd Hth Hs Hf. destruct (rdom_ok K adicity root k h d Ha Hr Hk Hd) as [Ok Pk]. apply partial_lagrange_wrap; auto; lia.
Qed.

(** The vendor PSE on the gate of the circuit above. *)
Definition gate97 : expr F97 := EProd (EFixed 0 0) (ESum (EProd (EAdvice 0 0) (EAdvice 1 0)) (ENeg (EAdvice 2 0))).
Definition pse97 : option (list Z) :=
  match create_domain 5 (m97 28) 4, create_domain 5 (m97 28) 8 with
  | Some d, Some ext => match build_item true 3 backwards ext false with
                        | Some it => option_map (map (zval 97)) (build_extended_circuit_column_pse 3 backwards d ext it [gate97] ch97 (m97 35) [wit_table wit97])
                        | None => None end
  | _, _ => None end.
Lemma pse_wrong : exists (K : fld) (adicity : nat) (root : K) (k e : nat) (d ext : domain K) (it : item K) (gate : expr K) (ch : challenges K) (zeta : K) (polys : table K) (column : list K) (p : nat),
  primitive_root root (2 ^ adicity) /\ (k <= e <= adicity)%nat /\ radix2_domain adicity root k 1%fld d /\ radix2_domain adicity root e 1%fld ext /\ complete_item true false e (generator adicity root e) it /\
  (zeta * zeta * zeta = 1)%fld /\ zeta <> 1%fld /\ e = compute_extended_k {| sys_gates := [gate]; sys_columns := []; sys_lookups := []; sys_minimum := 1 |} k /\ in_table polys (2 ^ k) gate /\
  (forall j, (j < 2 ^ k)%nat -> value (leaves_at (generator adicity root k) (2 ^ k) polys (generator adicity root k ^ j)%fld) gate = 0%fld) /\
  build_extended_circuit_column_pse 3 backwards d ext it [gate] ch zeta [polys] = Some column /\ (p < 2 ^ e)%nat /\
  nth p column 0%fld <> value (leaves_at (generator adicity root k) (2 ^ k) polys (zeta * generator adicity root e ^ p)%fld) gate.
Proof.
  assert (EP : exists l, pse97 = Some l /\ nth 4 l 0%Z <> zval 97 (value (leaves_at (generator 5 (m97 28) 2) (2 ^ 2) (wit_table wit97) (m97 35 * generator 5 (m97 28) 3 ^ 4)%fld) gate97)).
  { assert (B : match pse97 with Some l => negb (nth 4 l 0 =? zval 97 (value (leaves_at (generator 5 (m97 28) 2) (2 ^ 2) (wit_table wit97) (m97 35 * generator 5 (m97 28) 3 ^ 4)%fld) gate97))%Z | None => false end = true)
      by (vm_compute; reflexivity).
    destruct pse97 as [l|]; [|discriminate]. exists l. split; [reflexivity|]. apply negb_true_iff in B. apply Z.eqb_neq in B. exact B. }
  destruct EP as (l & EP & HN). unfold pse97 in EP.
  destruct (create_domain 5 (m97 28) 4) as [d|] eqn:Ed; [|discriminate]. destruct (create_domain 5 (m97 28) 8) as [ext|] eqn:Ee; [|discriminate].
  destruct (build_item true 3 backwards ext false) as [it|] eqn:Ei; [|discriminate].
  destruct (build_extended_circuit_column_pse 3 backwards d ext it [gate97] ch97 (m97 35) [wit_table wit97]) as [column|] eqn:EC; [|discriminate]. cbn [option_map] in EP. injection EP as EP.
  assert (Re : radix2_domain 5 (m97 28) 3 1%fld ext) by (exists ext; split; [exact Ee|left; auto]).
  exists F97, 5%nat, (m97 28), 2%nat, 3%nat, d, ext, it, gate97, ch97, (m97 35), (wit_table wit97), column, 4%nat.
  split; [exact root97|]. split; [lia|]. split; [exists d; split; [exact Ed|left; auto]|]. split; [exact Re|].
  split. { destruct (fresh_item F97 5 (m97 28) 3 1%fld ext true 3 backwards false ltac:(lia) root97 ltac:(lia) Re ltac:(lia) backwards_ok) as (it' & E' & HI). rewrite E' in Ei. injection Ei as <-. exact HI. }
  split; [apply zp_eq; vm_compute; reflexivity|]. split; [intros E; apply (f_equal (zval 97)) in E; vm_compute in E; discriminate|]. split; [vm_compute; reflexivity|].
  split; [cbn; lia|]. split. { intros j Hj. do 4 (destruct j as [|j]; [apply zp_eq; vm_compute; reflexivity|]). cbn in Hj. lia. }
  split; [exact EC|]. split; [cbn; lia|]. intros E. apply HN. rewrite <- E, <- EP. exact (map_nth (zval 97) column (0%fld : F97) 4).
Qed.
