(** Statements assembled for SumcheckProps.v, and the refutations. *)
From Coq Require Import ZArith Lia List Bool Arith Ring Field Field_theory ZifyBool ZifyNat.
From Verif Require Import Field Zp BigIntModel ParallelizeModel SemigroupModel PolySpec PolyModel KzgProof
  SumcheckModel SumcheckSpec SumcheckProof SumcheckProof2 SumcheckProof3 SumcheckProof4 SumcheckProof5 SumcheckProof6.
Import ListNotations.
Open Scope fld_scope.

Section Extra.
  Variable K : fld.
  Add Field Ks9 : (fld_theory K).
  Implicit Types (l x y : list K).

  Lemma evaluate_all (md n : nat) l : (n < 64)%nat -> (n <= md)%nat -> length l = Nat.pow 2 n ->
    (forall x, length x = n -> mle_evaluate md l x = Some (mlx l x)) /\
    (forall b, (b < Nat.pow 2 n)%nat -> mle_evaluate md l (corner n b) = Some (nth b l 0)) /\
    (forall x y (a b t : K), (length x + S (length y))%nat = n -> exists u v, mle_evaluate md l (x ++ a :: y) = Some u /\ mle_evaluate md l (x ++ b :: y) = Some v /\
       mle_evaluate md l (x ++ (a + t * (b - a)) :: y) = Some (u + t * (v - u))) /\
    (forall x, (length x <= n)%nat -> exists l', fix_variables md x l = Some l' /\ length l' = Nat.pow 2 (n - length x) /\
       forall y, length y = (n - length x)%nat -> mle_evaluate md l' y = mle_evaluate md l (x ++ y)) /\
    (forall x, length x <> n -> mle_evaluate md l x = None) /\ (forall x, (n < length x)%nat -> fix_variables md x l = None).
  Proof.
    intros H64 Hmd Hl. assert (E : forall x, length x = n -> mle_evaluate md l x = Some (mlx l x)) by (intros x Hx; apply (evaluate_ok K md n); assumption).
    split; [exact E|]. split; [|split; [|split; [|split]]].
    - intros b Hb. rewrite E by apply corner_length. rewrite mlx_corner by exact Hb. reflexivity.
    - intros x y a b t Hn. exists (mlx l (x ++ a :: y)), (mlx l (x ++ b :: y)). rewrite !E by (rewrite app_length; exact Hn). rewrite mlx_affine. auto.
    - intros x Hx. destruct (fix_variables_ok K md n l x H64 Hmd Hl Hx) as (l' & E1 & _ & L & V). exists l'. split; [exact E1|]. split; [exact L|]. intros y Hy.
      rewrite (evaluate_ok K md (n - length x)) by (try assumption; lia). rewrite E by (rewrite app_length; lia). rewrite V by exact Hy. reflexivity.
    - intros x Hx. apply (evaluate_wrong K md n l x H64 Hl Hx).
    - intros x Hx. unfold fix_variables. rewrite (fix_variables_wrong K n) by assumption. reflexivity.
  Qed.
  Lemma short_point (md n : nat) l x : (n < 64)%nat -> (n <= md)%nat -> length l = Nat.pow 2 n -> (length x < n)%nat ->
    mle_evaluate md l x = None /\ mle_evaluate md l (x ++ repeat 0 (n - length x)) = Some (mlx l (x ++ repeat 0 (n - length x))).
  Proof. intros H64 Hm Hl Hx. split; [apply (evaluate_wrong K md n l x H64 Hl); lia|]. apply (evaluate_all md n l H64 Hm Hl). rewrite app_length, repeat_length. lia. Qed.
  Lemma same_function (n : nat) (a b : list K) : (n < 64)%nat -> values_for n a -> values_for n b -> mle_eqb a b = true <-> forall x, length x = n -> mlx a x = mlx b x.
  Proof. intros Hn. apply (equal_functions K n n); [exact Hn|lia]. Qed.

  Lemma operators (md n : nat) (a b : list K) : (n < 64)%nat -> (n <= md)%nat -> values_for n a -> values_for n b ->
    (exists c, mle_add md a b = Some c /\ values_for n c /\ forall x, length x = n -> mlx c x = mlx a x + mlx b x) /\
    (exists c, mle_sub md a b = Some c /\ values_for n c /\ forall x, length x = n -> mlx c x = mlx a x - mlx b x) /\
    (exists c, mle_negate md a = Some c /\ values_for n c /\ forall x, length x = n -> mlx c x = - mlx a x) /\
    (exists c, mle_mul md a b = Some c /\ values_for n c /\ forall i, (i < Nat.pow 2 n)%nat -> mlx c (corner n i) = mlx a (corner n i) * mlx b (corner n i)) /\
    ((forall i, (i < Nat.pow 2 n)%nat -> mlx b (corner n i) <> 0) ->
     exists c, mle_div md a b = Some (Some c) /\ values_for n c /\ forall i, (i < Nat.pow 2 n)%nat -> mlx c (corner n i) * mlx b (corner n i) = mlx a (corner n i)) /\
    (a <> [] -> (exists i, (i < Nat.pow 2 n)%nat /\ mlx b (corner n i) = 0) -> mle_div md a b = Some None).
  Proof.
    intros H64 Hmd Ha Hb. pose proof (Nat.pow_nonzero 2 n ltac:(lia)) as P. split; [|split; [|split; [|split; [|split]]]].
    - apply add_ok; assumption.
    - apply sub_ok; assumption.
    - apply negate_ok; assumption.
    - apply mul_ok; assumption.
    - intros Hz. apply div_ok; try assumption. destruct Hb as [->|Hb]; [|exact Hb]. exfalso. apply (Hz 0%nat); [lia|]. apply mlx_empty.
    - intros Ha0 (i & Hi & Hz). apply (div_zero K n) with (i := i); assumption.
  Qed.

  Lemma combination_built (heap : nat -> list K) (threads : Z) (md n : nat) ts : (0 < threads < 128)%Z -> (n < 62)%nat -> (n <= md)%nat -> (2 * Z.of_nat (length ts) + threads < 2 ^ 64)%Z ->
    (2 * Z.of_nat (max_factors ts) + threads < 2 ^ 64)%Z -> Forall (fun t => Forall (fun p => length (heap p) = Nat.pow 2 n) (snd t)) ts ->
    exists lc, build_lc heap n ts = Some lc /\ lc_combine heap threads lc = Some (cube_sum n (combination heap ts)) /\
      (forall x, length x = n -> lc_evaluate heap threads md lc x = Some (combination heap ts x)) /\ (forall x, length x <> n -> lc_evaluate heap threads md lc x = None) /\
      lc_max lc = max_factors ts /\ NoDup (lc_flat lc).
  Proof.
    intros Ht H62 Hmd Hbt Hbm HG. destruct (build_ok K heap n ltac:(lia) ts HG) as (lc & E & S). exists lc. split; [exact E|].
    assert (Hb : (2 * Z.of_nat (Nat.pow 2 n) + threads < 2 ^ 64)%Z).
    { rewrite Nat2Z.inj_pow. change (Z.of_nat 2) with 2%Z. assert (2 ^ Z.of_nat n <= 2 ^ 61)%Z by (apply Z.pow_le_mono_r; lia). change (2 ^ 61)%Z with 2305843009213693952%Z in *. change (2 ^ 64)%Z with 18446744073709551616%Z. lia. }
    split; [apply (lc_combine_ok K heap n ltac:(lia)); try assumption; lia|]. split.
    - intros x Hx. apply (lc_evaluate_ok K heap n ltac:(lia)); try assumption; try lia. apply Forall_forall. intros t Hin. assert (length (snd t) <= max_factors ts)%nat; [|lia].
      unfold max_factors. clear -Hin. induction ts as [|s ts IH]; [contradiction|]. cbn [map fold_right]. destruct Hin as [->|Hin]; [lia|]. specialize (IH Hin). lia.
    - split; [|split; apply S]. intros x Hx. unfold lc_evaluate. assert (V : lc_vars lc = n) by apply S. rewrite V. replace (Nat.eqb (length x) n) with false by lia. reflexivity.
  Qed.
  Lemma add_wrong (heap : nat -> list K) (lc : lincomb K) c ps k : (k < 64)%nat -> k <> lc_vars lc -> Exists (fun p => length (heap p) = Nat.pow 2 k) ps -> add_lc_term heap lc c ps = None.
  Proof.
    intros Hk Hne H. unfold add_lc_term. destruct ps as [|p ps]; [inversion H|]. rewrite add_pointers_wrong; [reflexivity|]. apply Exists_exists in H. destruct H as (q & Hin & Hq).
    apply Exists_exists. exists q. split; [exact Hin|]. rewrite (degree_pow2 K _ k Hk Hq). exact Hne.
  Qed.

  Lemma interpolation (big : K -> Z) (threads : Z) (poly : list K) (x : K) : (0 < threads < 128)%Z -> (2 * Z.of_nat (length poly) + threads < 2 ^ 64)%Z -> stands_for big (length poly) -> poly <> [] ->
    exists P, (length P <= length poly)%nat /\ (forall i, (i < length poly)%nat -> eval P (fnat i) = nth i poly 0) /\ interpolate_uni_poly big threads poly x = Some (eval P x).
  Proof.
    intros Ht Hb Hbig Hne. assert (Hn : (0 < length poly)%nat) by (destruct poly; [contradiction|cbn; lia]).
    destruct (interpolate_exists K big poly Hbig Hn) as (f & (P & LP & VP) & V). exists P. split; [exact LP|]. split; [intros i Hi; rewrite VP; apply V; exact Hi|].
    rewrite (interpolate_ok K big threads poly x Ht Hb Hbig f); [rewrite VP; reflexivity|exact Hn|exists P; split; assumption|exact V].
  Qed.

  Lemma complete (big : K -> Z) (heap : nat -> list K) (threads : Z) (md mmd n : nat) ts rs : (0 < threads < 128)%Z -> (n < 62)%nat -> (0 < n <= mmd)%nat -> (0 < max_factors ts <= md)%nat ->
    Forall (fun t => Forall (fun p => length (heap p) = Nat.pow 2 n) (snd t)) ts -> stands_for big (max_factors ts + 1) ->
    (2 * Z.of_nat (max_factors ts + 1) + threads < 2 ^ 64)%Z -> (2 * Z.of_nat (length ts) + threads < 2 ^ 64)%Z -> length rs = n ->
    exists lc, build_lc heap n ts = Some lc /\ run_protocol big heap threads md mmd lc rs = Some true.
  Proof.
    intros Ht H62 Hn Hd HG Hbig Hbm Hbt Hrs. destruct (build_ok K heap n ltac:(lia) ts HG) as (lc & E & S). exists lc. split; [exact E|].
    apply (protocol_complete K big threads Ht heap md mmd n ts); assumption.
  Qed.
  Lemma soundness (big : K -> Z) (heap : nat -> list K) (threads : Z) (n : nat) ts (S : list K) strategy (sum : K) : (0 < threads < 128)%Z -> NoDup S -> stands_for big (max_factors ts + 1) ->
    (2 * Z.of_nat (max_factors ts + 1) + threads < 2 ^ 64)%Z -> sum <> cube_sum n (combination heap ts) ->
    (length (filter (accepts big threads n (max_factors ts) sum strategy (combination heap ts)) (tuples S n)) <= n * max_factors ts * Nat.pow (length S) (n - 1))%nat.
  Proof. intros Ht HN Hbig Hb Hs. apply sound; try assumption. apply (combination_low K big). Qed.

  (** A second call of CheckAndGenerateSubclaim reads the randomness that was moved away. *)
  Lemma second_check (big : K -> Z) (threads : Z) v v' (sum : K) sub : (0 < v_vars v)%nat -> check_subclaim big threads v sum = Some (v', Some sub) -> check_subclaim big threads v' sum = None.
  Proof.
    intros Hv. unfold check_subclaim. destruct (Nat.eqb (length (v_received v)) (v_vars v)) eqn:E; [|discriminate].
    destruct (check_rounds big threads v 0 (v_received v) sum) as [[e|]|] eqn:EC; try discriminate. intros [= <- _]. cbn [v_received v_vars]. rewrite E.
    destruct (v_received v) as [|m ms]; [apply Nat.eqb_eq in E; cbn [length] in E; lia|]. cbn [check_rounds v_max v_random] in *. destruct (Nat.eqb (length m) (v_max v + 1)); [|discriminate].
    destruct (nth_error m 0); [|discriminate]. destruct (nth_error m 1); [|discriminate]. destruct (feqb _ _); [|discriminate]. cbn [nth_error]. reflexivity.
  Qed.
  (** The verifier aborts on a message of a wrong size. *)
  Lemma malformed (big : K -> Z) (threads : Z) (n d : nat) (r sum : K) (msg : list K) : (0 < n)%nat -> length msg <> (d + 1)%nat ->
    forall rs ms, length ms = (n - 1)%nat -> check_subclaim big threads (mk_verifier n d (r :: rs) (msg :: ms)) sum = None.
  Proof.
    intros Hn Hm rs ms Hl. unfold check_subclaim. cbn [v_received v_vars length]. replace (Nat.eqb _ _) with true by lia. cbn [check_rounds v_max].
    replace (Nat.eqb (length msg) (d + 1)) with false by lia. reflexivity.
  Qed.
End Extra.

Notation h13 n := (mkz 13 (prime_check_sound 13 eq_refl) n : F13).
Definition big_of (x : F13) : Z := zval 13 x.
Lemma big_of_ok n : (n <= 13)%nat -> stands_for big_of n.
Proof.
  assert (A : forall i, (i < 13)%nat -> big_of (fnat i) = Z.of_nat i). { intros i Hi. do 13 (destruct i as [|i]; [vm_compute; reflexivity|]). lia. }
  intros Hn. split; [|intros i Hi; apply A; lia]. intros x. unfold big_of.
  assert (0 <= zval 13 x < 13)%Z by (apply zval_range; reflexivity). split; [lia|]. apply zp_eq. specialize (A (Z.to_nat (zval 13 x)) ltac:(lia)). unfold big_of in A. rewrite A. lia.
Qed.
Lemma f13_some (a : option F13) (b : F13) : option_map (zval 13) a = Some (zval 13 b) -> a = Some b.
Proof. destruct a as [r|]; cbn [option_map]; intros E; [|discriminate]. injection E as E. f_equal. apply zp_eq. exact E. Qed.
Lemma empty_combination : exists (K : fld) (big : K -> Z) (heap : nat -> list K) (rs : list K) lc, build_lc heap 2 [] = Some lc /\ stands_for big 1 /\
  length rs = 2%nat /\ lc_combine heap 3 lc = Some 0 /\ run_protocol big heap 3 2 2 lc rs = None.
Proof.
  exists F13, big_of, (fun _ => []), [h13 3; h13 5], (lc_new 2). split; [reflexivity|]. split; [apply big_of_ok; lia|]. split; [reflexivity|]. split; [apply f13_some|]; vm_compute; reflexivity.
Qed.
Lemma pk_equality : exists (K : fld) (a b : proving_key K) p q, pk_eqb a b = true /\ new_prover a = Some p /\ new_prover b = Some q /\
  option_map snd (prover_round 3 2 p) <> option_map snd (prover_round 3 2 q) /\ prover_round 3 2 p <> None /\ prover_round 3 2 q <> None.
Proof.
  pose (key (z : Z) := mk_pk 1 1 [mk_term (h13 1) [0%nat]] [[h13 z; h13 5]]). pose (pr (z : Z) := mk_prover 0 1 1 [mk_term (h13 1) [0%nat]] [[h13 z; h13 5]]).
  exists F13, (key 3), (key 4), (pr 3), (pr 4). split; [vm_compute; reflexivity|]. split; [reflexivity|]. split; [reflexivity|]. split; [|split; intros H; apply (f_equal (fun o => match o with None => true | Some _ => false end)) in H; vm_compute in H; discriminate].
  intros H. apply (f_equal (option_map (map (zval 13)))) in H. vm_compute in H. discriminate.
Qed.
Lemma ragged : exists (K : fld) (heap : nat -> list K) (c : K) lc, length (heap 0%nat) = 3%nat /\ build_lc heap 2 [(c, [0%nat])] = Some lc /\
  lc_combine heap 3 lc = Some (c * (mle_at (heap 0%nat) 0 + mle_at (heap 0%nat) 1 + mle_at (heap 0%nat) 2 + 1)) /\ mle_at (heap 0%nat) 3 = 0 /\
  exists x, length x = 2%nat /\ lc_evaluate heap 3 2 lc x = None.
Proof.
  exists F13, (fun _ => [h13 2; h13 3; h13 4]), (h13 5), (mk_lc 1 2 [mk_term (h13 5) [0%nat]] [0%nat] [(0%nat, 0%nat)]). split; [reflexivity|]. split; [reflexivity|].
  split; [|split; [reflexivity|]]. { apply f13_some. vm_compute. reflexivity. }
  exists [h13 1; h13 1]. split; [reflexivity|]. vm_compute. reflexivity.
Qed.
