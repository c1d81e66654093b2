(** All matrices and all rounds. *)
From Coq Require Import ZArith List Bool Lia Arith Sorting.Sorted Ring Field Field_theory.
From Verif Require Import Field BitsModel BitsExtra BitsProof ParallelizeModel ParallelizeProof SemigroupModel SemigroupExtra
  PolySpec PolyProof PolyProof3 FFTModel FFTSpec FFTProof FFTProof2 FFTProof4 FFTProof5 FFTExtra DomainSpec DomainProof CosetModel CosetProof CosetProof2 BatchSpec BatchProof2 BatchExtra
  FriModel FriSpec FriProof FriProof2 PcsModel PcsSpec PcsProof PcsProof2 PcsProof3.
Import ListNotations.
Open Scope nat_scope.

Lemma fold_max {A} (f : A -> nat) l : forall a, fold_left (fun a x => Nat.max a (f x)) l a = Nat.max a (list_max (map f l)).
Proof. induction l as [|x l IH]; intros a; [cbn; lia|]. cbn [fold_left map]. rewrite IH. change (list_max (f x :: map f l)) with (Nat.max (f x) (list_max (map f l))). lia. Qed.
Lemma list_max_pow {A} (f : A -> nat) l : l <> [] -> list_max (map (fun x => 2 ^ f x) l) = 2 ^ list_max (map f l).
Proof.
  induction l as [|x l IH]; [congruence|]. intros _. change (Nat.max (2 ^ f x) (list_max (map (fun x => 2 ^ f x) l)) = 2 ^ Nat.max (f x) (list_max (map f l))).
  destruct l as [|y l]; [cbn [map list_max fold_right]; rewrite !Nat.max_0_r; reflexivity|]. rewrite IH by discriminate. set (M := list_max _).
  destruct (Nat.max_spec (f x) M) as [[H ->]|[H ->]].
  - apply Nat.max_r. apply Nat.pow_le_mono_r; lia.
  - apply Nat.max_l. apply Nat.pow_le_mono_r; lia.
Qed.
Lemma list_max_in {A} (f : A -> nat) l x : In x l -> f x <= list_max (map f l).
Proof. intros H. pose proof (proj1 (list_max_le (map f l) _) (le_n _)) as HF. rewrite Forall_forall in HF. apply HF, in_map, H. Qed.
Lemma list_max_attained {A} (f : A -> nat) l : l <> [] -> exists x, In x l /\ f x = list_max (map f l).
Proof.
  induction l as [|x l IH]; [congruence|]. intros _. change (list_max (map f (x :: l))) with (Nat.max (f x) (list_max (map f l))). destruct l as [|y l].
  - exists x. split; [left; reflexivity|]. cbn. lia.
  - destruct IH as (z & Hz & E); [discriminate|]. destruct (Nat.max_spec (f x) (list_max (map f (y :: l)))) as [[H ->]|[H ->]].
    + exists z. split; [right; exact Hz|exact E].
    + exists x. split; [left; reflexivity|reflexivity].
Qed.

Section Rounds.
  Variable K : fld.
  Add Field Kpcs5 : (fld_theory K).
  Open Scope fld_scope.
  Variables (adicity : nat) (root shift : K) (threads : Z) (lb : nat) (alpha : K).
  Hypothesis Had : (adicity < 62)%nat.
  Hypothesis Hroot : primitive_root root (2 ^ adicity).
  Hypothesis Ht : (0 < threads < 2 ^ 62)%Z.
  Hypothesis Hshift : shift <> 0.
  Variables (D : list (K * list K)) (G : nat).
  Notation gen k := (generator adicity root k).
  Notation xpt := (xpt K adicity root shift).
  Notation pm := (pm K adicity root shift lb).
  Notation lowp := (lowp K adicity root shift lb).
  Notation good := (good_denoms K adicity root shift D).
  Notation Inv := (Inv K adicity root shift lb G).
  Notation abs := (abs K alpha G).
  Notation L p := (c_log p + lb)%nat.
  Implicit Types (e : committed K * list K) (l : list (committed K * list K)) (st : arrays K).

  Definition lde e : list (list K) * list K := (pm (c_log (fst e)) (c_columns (fst e)), snd e).
  Definition opened e : list (list K) := map (fun z => values_at z (c_columns (fst e))) (snd e).
  Definition row_at index e : list K := values_at (xpt (L (fst e)) (Nat.div index (2 ^ (G - L (fst e))))) (c_columns (fst e)).
  Definition ok e : Prop := committable adicity lb (fst e) /\ (L (fst e) <= G)%nat /\ Forall (good (L (fst e))) (snd e).
  Definition cnt l : nat := list_sum (map (fun e => length (c_columns (fst e)) * length (snd e))%nat l).

  Lemma open_matrices_spec l : forall N st, Forall ok l -> Inv N st -> (Z.of_nat (N + cnt l) < 2 ^ 64)%Z ->
    exists st', open_matrices K adicity root shift threads lb alpha D st (map lde l) = Some (st', map opened l) /\ Inv (N + cnt l) st' /\
      (forall e, In e l -> nth (L (fst e)) (fst st') [] <> []) /\ (forall j, nth j (fst st) [] <> [] -> nth j (fst st') [] <> []) /\
      forall index ds, (index < 2 ^ G)%nat -> Forall2 (fun e d => d_log d = c_log (fst e)) l ds ->
        check_matrices K adicity root shift lb alpha G index (abs index st) (map opened l) ds (map snd l) (map (row_at index) l) = Some (abs index st').
  Proof.
    induction l as [|[p zs] l IH]; intros N st HF HI Hn.
    - exists st. cbn [map open_matrices]. unfold cnt. cbn [map list_sum fold_right]. rewrite Nat.add_0_r. split; [reflexivity|]. split; [exact HI|]. split; [intros e []|]. split; [auto|].
      intros index ds _ _. reflexivity.
    - apply Forall_cons_iff in HF. destruct HF as [((W1 & W2 & W3 & W4 & W5 & W6) & HG & Hz) HF]. cbn [fst snd] in *.
      change (cnt ((p, zs) :: l)) with (length (c_columns p) * length zs + cnt l)%nat in *. rewrite (Nat.mul_comm (length (c_columns p))) in *.
      destruct (open_matrix_spec K adicity root shift threads lb alpha Had Hroot Ht Hshift D G (c_log p) (c_columns p) zs N st W1 W2 W3 HG W6 W5 Hz HI ltac:(lia)) as (st1 & E1 & I1 & A1 & M1 & C1).
      destruct (IH _ st1 HF I1 ltac:(lia)) as (st2 & E2 & I2 & A2 & M2 & C2).
      exists st2. cbn [map open_matrices]. unfold lde at 1. cbn [fst snd]. rewrite E1, E2. rewrite Nat.add_assoc. split; [reflexivity|]. split; [exact I2|]. split; [|split].
      + intros e [<-|He]; [cbn [fst]; apply M2; exact A1|apply A2; exact He].
      + intros j Hj. apply M2, M1, Hj.
      + intros index ds Hi HD. inversion HD as [|? d ? ds' Hd HD']; subst. cbn [map check_matrices]. cbn [fst] in Hd.
        unfold opened at 1. unfold row_at at 1. cbn [fst snd]. unfold values_at at 1 2. rewrite (C1 index d Hi Hd). apply C2; assumption.
  Qed.

  Lemma open_rounds_spec (rs : list (list (committed K * list K))) : forall N st, Forall (Forall ok) rs -> Inv N st -> (Z.of_nat (N + list_sum (map cnt rs)) < 2 ^ 64)%Z ->
    exists st', open_rounds K adicity root shift threads lb alpha D st (map (map lde) rs) = Some (st', map (map opened) rs) /\ Inv (N + list_sum (map cnt rs)) st' /\
      (forall l e, In l rs -> In e l -> nth (L (fst e)) (fst st') [] <> []) /\ (forall j, nth j (fst st) [] <> [] -> nth j (fst st') [] <> []) /\
      forall (ICom IPf : Type) input_verify index dss (coms : list ICom) (inps : list (list (list K) * IPf)), (index < 2 ^ G)%nat ->
        Forall2 (fun l ds => l <> [] /\ Forall2 (fun e d => d_log d = c_log (fst e) /\ d_size d = (2 ^ c_log (fst e))%nat) l ds) rs dss ->
        Forall2 (fun lc inp => fst inp = map (row_at index) (fst lc) /\
           input_verify (snd lc) (map (fun e => (0, 2 ^ L (fst e))%nat) (fst lc)) (Nat.div index (2 ^ (G - list_max (map (fun e => L (fst e)) (fst lc))))) (fst inp) (snd inp) = true) (combine rs coms) inps ->
        length coms = length rs ->
        check_rounds K adicity root shift lb ICom IPf input_verify alpha G index (abs index st) coms dss (map (map snd) rs) (map (map opened) rs) inps = Some (abs index st').
  Proof.
    induction rs as [|l rs IH]; intros N st HF HI Hn.
    - exists st. cbn [map open_rounds list_sum fold_right]. rewrite Nat.add_0_r. split; [reflexivity|]. split; [exact HI|]. split; [intros l e []|]. split; [auto|].
      intros ICom IPf iv index dss coms inps _ _ _ HL. destruct coms; [reflexivity|discriminate].
    - apply Forall_cons_iff in HF. destruct HF as [Hl HF]. change (list_sum (map cnt (l :: rs))) with (cnt l + list_sum (map cnt rs))%nat in *.
      destruct (open_matrices_spec l N st Hl HI ltac:(lia)) as (st1 & E1 & I1 & A1 & M1 & C1).
      destruct (IH _ st1 HF I1 ltac:(lia)) as (st2 & E2 & I2 & A2 & M2 & C2).
      exists st2. cbn [map open_rounds]. rewrite E1, E2, Nat.add_assoc. split; [reflexivity|]. split; [exact I2|]. split; [|split].
      + intros l' e [<-|Hl'] He; [apply M2, A1, He|apply (A2 l' e); assumption].
      + intros j Hj. apply M2, M1, Hj.
      + intros ICom IPf iv index dss coms inps Hi HD HV HL. destruct coms as [|com coms]; [discriminate|]. inversion HD as [|? ds ? dss' [Hne Hds] HD']; subst. cbn [combine] in HV.
        inversion HV as [|? inp ? inps' [Hrow Hver] HV']; subst. cbn [fst snd] in Hrow, Hver. cbn [map check_rounds].
        assert (EC : check_round K adicity root shift lb ICom IPf iv alpha G index (abs index st) com ds (map snd l) (map opened l) inp = Some (abs index st1)).
        { unfold check_round. assert (HLd : length ds = length l) by (symmetry; eapply Forall2_length; exact Hds).
          rewrite zip_reads_combine by (rewrite map_length; congruence).
          assert (Edims : map (fun p : list (list K) * domain K => (0, d_size (snd p) * 2 ^ lb)%nat) (combine (map opened l) ds) = map (fun e => (0, 2 ^ L (fst e))%nat) l).
          { clear - Hds. induction Hds as [|e d l ds [H1 H2] Hds IH]; [reflexivity|]. cbn [map combine snd]. rewrite IH, H2, <- Nat.pow_add_r. reflexivity. }
          rewrite Edims. rewrite fold_max, map_map. cbn [snd]. rewrite Nat.max_0_l. rewrite (list_max_pow (fun e => L (fst e)) l Hne).
          set (M := list_max (map (fun e => L (fst e)) l)) in *.
          assert (HM : (M < 32 /\ M <= G)%nat).
          { destruct (list_max_attained (fun e => L (fst e)) l Hne) as (e & He & EM). fold M in EM. rewrite <- EM. rewrite Forall_forall in Hl. destruct (Hl e He) as ((_ & _ & H32 & _) & HG & _). lia. }
          rewrite checked_log2_pow2 by lia. rewrite Nat2Z.id. unfold reduced_index. rewrite (proj2 (Nat.ltb_ge _ _)) by lia. rewrite Hver, Hrow. apply C1; [exact Hi|].
          clear - Hds. induction Hds as [|e d l ds [H1 H2] Hds IH]; constructor; assumption. }
        rewrite EC. apply C2; try assumption. cbn in HL. congruence.
  Qed.
End Rounds.
