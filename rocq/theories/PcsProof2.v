(** The reduced openings of prover and verifier. *)
From Coq Require Import ZArith List Bool Lia Arith Ring Field Field_theory.
From Verif Require Import Field BitsModel BitsExtra BitsProof ParallelizeModel ParallelizeProof SemigroupModel SemigroupExtra
  PolySpec PolyProof PolyProof3 FFTModel FFTSpec FFTProof FFTProof2 FFTProof4 FFTProof5 FFTExtra DomainSpec DomainProof CosetModel CosetProof CosetProof2 FriModel FriSpec FriProof FriProof2 PcsModel PcsProof.
Import ListNotations.
Open Scope nat_scope.

Section Openings.
  Variable K : fld.
  Add Field Kpcs3 : (fld_theory K).
  Open Scope fld_scope.
  Variables (adicity : nat) (root shift : K) (threads : Z) (lb : nat) (alpha : K).
  Hypothesis Had : (adicity < 62)%nat.
  Hypothesis Hroot : primitive_root root (2 ^ adicity).
  Hypothesis Ht : (0 < threads < 2 ^ 62)%Z.
  Hypothesis Hshift : shift <> 0.
  Notation gen k := (generator adicity root k).
  Notation xpt := (xpt K adicity root shift).
  Notation at_ x cols := (map (fun f => eval f x) cols).

  (** The extension of the polynomials [cols], in bit-reversed order. *)
  Definition pm (k : nat) (cols : list (list K)) : list (list K) := map (fun i => at_ (xpt (k + lb) i) cols) (seq 0 (2 ^ (k + lb))).
  Definition lowp (l : nat) (v : list K) : Prop :=
    length v = (2 ^ l)%nat /\ (lb < l)%nat /\ exists c, (length c <= 2 ^ (l - lb))%nat /\ forall i, (i < 2 ^ l)%nat -> nth i v 0 = eval c (xpt l i).

  Lemma lowp_zero l : (lb < l)%nat -> lowp l (repeat 0 (2 ^ l)).
  Proof using Type. clear. intros H. split; [apply repeat_length|]. split; [exact H|]. exists []. split; [cbn; lia|]. intros i Hi. rewrite nth_repeat, eval_nil. reflexivity. Qed.
  Lemma lowp_low_degree l v : lowp l v -> low_degree adicity root lb l v.
  Proof using Type.
    clear. intros (Hl & Hlb & c & Hc & E). split; [lia|]. destruct (scaled_poly K shift c) as (c' & L & E'). exists c'. split; [lia|]. split; [exact Hl|].
    intros r Hr. rewrite E by exact Hr. rewrite brev_rev, E'. reflexivity.
  Qed.
  Lemma lowp_step l v R z s : lowp l v -> (length R <= 2 ^ (l - lb))%nat -> (forall i, (i < 2 ^ l)%nat -> xpt l i <> z) ->
    lowp l (map (fun i => nth i v 0 + s * (eval R (xpt l i) - eval R z) * finv (xpt l i - z)) (seq 0 (2 ^ l))).
  Proof using Type.
    clear Had Hroot Ht Hshift. intros (Hl & Hlb & c & Hc & E) HR Hz. split; [rewrite map_length, seq_length; reflexivity|]. split; [exact Hlb|].
    destruct (quotient_poly K R z) as (Q & HQ & EQ).
    exists (map (fun i => coeff c i + s * coeff Q i) (seq 0 (2 ^ (l - lb)))). split; [rewrite map_length, seq_length; lia|]. intros i Hi.
    rewrite (tab_at (fun i => nth i v 0 + s * (eval R (xpt l i) - eval R z) * finv (xpt l i - z))) by exact Hi. rewrite E by exact Hi.
    symmetry. rewrite (eval_linear K c Q _ 1 s).
    - rewrite <- (EQ (xpt l i)) by (apply Hz; exact Hi). ring.
    - intros j. rewrite coeff_map_seq. destruct (Nat.ltb_spec j (2 ^ (l - lb))); [ring|]. rewrite !coeff_over by lia. ring.
  Qed.

  Lemma xpt_in l i : In (xpt l i) (coset_points shift (gen l) (2 ^ l)).
  Proof using Type. clear. unfold coset_points. apply in_map_iff. exists (brev l i). split; [reflexivity|]. apply in_seq. pose proof (brev_lt l i). lia. Qed.
  Lemma sub_coset k z : (k + lb <= adicity)%nat -> In z (coset_points shift (gen k) (2 ^ k)) -> In z (coset_points shift (gen (k + lb)) (2 ^ (k + lb))).
  Proof using Type.
    clear Had Hroot Ht Hshift. intros Hk Hz. unfold coset_points in *. apply in_map_iff in Hz. destruct Hz as (r & <- & Hr). apply in_seq in Hr. apply in_map_iff. exists (r * 2 ^ lb)%nat. split.
    - f_equal. replace (gen k) with (gen (k + lb) ^ (2 ^ lb)). 2:{ unfold generator. rewrite <- fpow_mul, <- Nat.pow_add_r. do 2 f_equal. lia. }
      rewrite <- fpow_mul. f_equal. apply Nat.mul_comm.
    - apply in_seq. split; [apply Nat.le_0_l|]. cbn [plus]. rewrite Nat.pow_add_r. apply Nat.mul_lt_mono_pos_r; [|lia]. pose proof (Nat.pow_nonzero 2 lb). lia.
  Qed.

  Definition good_denoms (D : list (K * list K)) (l : nat) (z : K) : Prop :=
    ~ In z (coset_points shift (gen l) (2 ^ l)) /\ (2 ^ l <= length (find_denoms K D z))%nat /\ forall i, (i < 2 ^ l)%nat -> nth i (find_denoms K D z) 0 = inv0 K (xpt l i - z).

  Section Matrix.
    Variables (D : list (K * list K)) (k : nat) (cols : list (list K)).
    Hypothesis Hk : (0 < k)%nat.
    Hypothesis Hka : (k + lb <= adicity)%nat.
    Hypothesis Hcols : Forall (fun f => (length f <= 2 ^ k)%nat) cols.
    Hypothesis Hne : cols <> [].
    Notation L := (k + lb)%nat.

    Lemma open_points_spec zs : forall vec num, lowp L vec -> Forall (good_denoms D L) zs -> (Z.of_nat (num + length zs * length cols) < 2 ^ 64)%Z ->
      exists vec', open_points K adicity root shift threads alpha D (length cols) (map (fun i => at_ (shift * gen k ^ i) cols) (seq 0 (2 ^ k))) (map (dot_powers K alpha 1) (pm k cols)) zs vec num =
          Some (vec', (num + length zs * length cols)%nat, map (fun z => at_ z cols) zs) /\ lowp L vec' /\
        forall i, (i < 2 ^ L)%nat -> add_points K alpha (xpt L i) (at_ (xpt L i) cols) zs (map (fun z => at_ z cols) zs) (nth i vec 0, alpha ^ num) =
          Some (nth i vec' 0, alpha ^ (num + length zs * length cols)).
    Proof.
      induction zs as [|z zs IH]; intros vec num Hv HF Hn.
      - exists vec. cbn [open_points length map add_points Nat.mul]. rewrite Nat.add_0_r. auto.
      - apply Forall_cons_iff in HF. destruct HF as [(Hz & Hdl & Hd) HF]. cbn [length Nat.mul] in *. cbn [open_points map add_points].
        rewrite (interpolate_outside K adicity root Had Hroot threads k cols shift z Ht ltac:(lia) Hshift Hcols) by (intros Hin; apply Hz, sub_coset; assumption).
        replace (length cols =? 0)%nat with false by (symmetry; apply Nat.eqb_neq; destruct cols; [congruence|discriminate]).
        pose proof Hv as (Hvl & Hlb & _). replace (length vec <=? length (find_denoms K D z))%nat with true by (symmetry; apply Nat.leb_le; lia).
        replace (length vec <=? length (map (dot_powers K alpha 1%fld) (pm k cols)))%nat with true by (symmetry; apply Nat.leb_le; unfold pm; rewrite !map_length, seq_length; lia). cbn [andb].
        destruct (combination K alpha (2 ^ k) cols Hcols) as (R & HR & ER).
        assert (Hxz : forall i, xpt L i <> z) by (intros i <-; apply Hz, xpt_in).
        assert (Hxz' : forall i, xpt L i - z <> 0) by (intros i E; apply (Hxz i); apply fsub_eq0; exact E).
        assert (EV : map (fun e : K * (K * K) => fst e + do_pow 1 fmul (fun y : K => y * y) [Z.of_nat num] alpha * (fst (snd e) - dot_powers K alpha 1 (at_ z cols)) * snd (snd e))
                       (combine vec (combine (map (dot_powers K alpha 1) (pm k cols)) (find_denoms K D z))) =
                     map (fun i => nth i vec 0 + alpha ^ num * (eval R (xpt L i) - eval R z) * finv (xpt L i - z)) (seq 0 (2 ^ L))).
        { assert (Hcl : length (combine vec (combine (map (dot_powers K alpha 1) (pm k cols)) (find_denoms K D z))) = (2 ^ L)%nat).
          { rewrite !combine_length, map_length. unfold pm. rewrite map_length, seq_length. lia. }
          apply nth_ext with (d := 0) (d' := 0); [rewrite !map_length, seq_length; exact Hcl|]. intros i Hi. rewrite map_length, Hcl in Hi.
          rewrite tab_at by exact Hi.
          rewrite (nth_indep _ 0 ((fun e : K * (K * K) => fst e + do_pow 1 fmul (fun y : K => y * y) [Z.of_nat num] alpha * (fst (snd e) - dot_powers K alpha 1 (at_ z cols)) * snd (snd e)) (0, (0, 0)))) by (rewrite map_length, Hcl; exact Hi).
          rewrite (map_nth (fun e : K * (K * K) => fst e + do_pow 1 fmul (fun y : K => y * y) [Z.of_nat num] alpha * (fst (snd e) - dot_powers K alpha 1 (at_ z cols)) * snd (snd e))).
          assert (Hcn : nth i (combine vec (combine (map (dot_powers K alpha 1) (pm k cols)) (find_denoms K D z))) (0, (0, 0)) = (nth i vec 0, (eval R (xpt L i), inv0 K (xpt L i - z)))).
          { apply nth_error_nth. apply combine_nth_error; [apply nth_error_nth'; lia|]. apply combine_nth_error.
            - unfold pm. rewrite map_map. rewrite (map_nth_error _ _ (seq 0 (2 ^ L)) (d := i)); [rewrite dot_powers_eval, <- ER; f_equal; ring|].
              rewrite (nth_error_nth' _ 0%nat) by (rewrite seq_length; exact Hi). rewrite seq_nth by exact Hi. reflexivity.
            - rewrite (nth_error_nth' _ 0) by lia. rewrite Hd by exact Hi. reflexivity. }
          rewrite Hcn. cbn [fst snd]. rewrite do_pow_fpow by lia. rewrite Nat2Z.id, dot_powers_eval, <- ER. unfold inv0. rewrite (proj2 (feqb_neq K _ _) (Hxz' i)). ring. }
        rewrite EV. set (vec1 := map _ (seq 0 (2 ^ L))) in *.
        assert (Hv1 : lowp L vec1). { apply lowp_step; [exact Hv| |intros i _; apply Hxz]. replace (L - lb)%nat with k by lia. exact HR. }
        destruct (IH vec1 (num + length cols)%nat Hv1 HF) as (vec' & E & Hv' & EA). { rewrite <- Nat.add_assoc. exact Hn. }
        exists vec'. rewrite E. rewrite <- Nat.add_assoc. split; [reflexivity|]. split; [exact Hv'|]. intros i Hi.
        rewrite (proj2 (feqb_neq K _ _) (Hxz' i)). rewrite !map_length, Nat.eqb_refl. rewrite add_columns_eval by (rewrite !map_length; reflexivity).
        rewrite <- !ER, map_length, <- fpow_add. rewrite Nat.add_assoc. rewrite <- (EA i Hi). f_equal. f_equal. unfold vec1.
        rewrite (tab_at (fun i => nth i vec 0 + alpha ^ num * (eval R (xpt L i) - eval R z) * finv (xpt L i - z))) by exact Hi. reflexivity.
    Qed.
  End Matrix.
End Openings.
