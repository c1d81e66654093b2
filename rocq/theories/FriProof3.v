(** FRI: honest proofs verify; accepted queries are honest foldings. *)
From Coq Require Import ZArith List Bool Lia Arith Permutation Sorting.Sorted Ring Field Field_theory.
From Verif Require Import Field BitsModel BitsSpec SemigroupModel PolySpec PolyProof3
  FFTModel FFTSpec FFTProof FFTProof2 FFTProof4 FFTProof5 FriModel FriSpec FriProof FriProof2.
Import ListNotations.
Open Scope nat_scope.

Lemma row_at (K : fld) (v : list K) index : (if Nat.odd index then [nth (2 * (Nat.div index 2)) v f0; nth index v f0] else [nth index v f0; nth (2 * (Nat.div index 2) + 1) v f0])
  = [nth (2 * (Nat.div index 2)) v f0; nth (2 * (Nat.div index 2) + 1) v f0].
Proof.
  pose proof (Nat.div2_odd index) as E. rewrite Nat.div2_div in E. destruct (Nat.odd index) eqn:Eo; cbn [Nat.b2n] in E.
  - rewrite <- E. reflexivity.
  - rewrite Nat.add_0_r in E. rewrite <- E. reflexivity.
Qed.
Lemma half_lt index k : index < 2 ^ S k -> Nat.div index 2 < 2 ^ k.
Proof. intros H. apply Nat.div_lt_upper_bound; [lia|]. cbn [Nat.pow] in H. lia. Qed.

Lemma remaining_none (K : fld) lb (ins : list (list K)) : Forall (fun v => 2 ^ lb < length v) ins -> remaining lb ins = [].
Proof. unfold remaining. induction 1 as [|v l Hv HH IH]; [reflexivity|]. cbn [filter]. rewrite (proj2 (Nat.leb_gt _ _)) by assumption. exact IH. Qed.

Section Main.
  Variable K : fld.
  Add Field Kfri4 : (fld_theory K).
  Open Scope fld_scope.
  Variables (adicity : nat) (root : K) (threads : Z).
  Hypothesis Had : (adicity < 63)%nat.
  Hypothesis Hroot : primitive_root root (2 ^ adicity).
  Hypothesis H2 : (1 + 1 : K) <> 0.
  Hypothesis Ht : (0 < threads < 2 ^ 63)%Z.
  Variables (Com Data Pf : Type).
  Variable mmcs_commit : list (list K) -> option (Com * Data).
  Variable mmcs_matrix : Data -> list (list K).
  Variable mmcs_open : nat -> Data -> option (list (list K) * Pf).
  Variable mmcs_verify : Com -> nat * nat -> nat -> list (list K) -> Pf -> bool.
  Variables (Ch Wit : Type).
  Variable observe_commitment : Ch -> Com -> Ch.
  Variable observe_value : Ch -> K -> Ch.
  Variable sample : Ch -> K * Ch.
  Variable grind : Ch -> Wit * Ch.
  Variable check_witness : Ch -> Wit -> bool * Ch.
  Variable sample_bits : nat -> Ch -> nat * Ch.
  Variable InProof : Type.
  Variables (lb num_queries : nat).
  Hypothesis Hlb : (0 < lb)%nat.
  Notation low := (low_degree adicity root lb).
  Notation vsteps := (verify_steps K adicity root Com Pf mmcs_verify).
  Notation loop := (commit_loop K adicity root threads Com Data mmcs_commit mmcs_matrix Ch observe_commitment sample lb).
  Notation answer := (answer_query K Data Pf mmcs_open).
  Notation betas_of := (sample_betas K Com Ch observe_commitment sample).
  Notation zip := (zip_steps K Com Pf).

  Lemma verify_steps_cons beta c sib pf r log' index fe ro : vsteps ((beta, c, (sib, pf)) :: r) (S log') index fe ro =
    (let evals := if Nat.odd index then [sib; fst (consume (S log') fe ro)] else [fst (consume (S log') fe ro); sib] in
     if mmcs_verify c (2, 2 ^ log')%nat (Nat.div index 2) [evals] pf then
       match fold_row adicity root (Nat.div index 2) log' beta evals with
       | None => None
       | Some f => vsteps r log' (Nat.div index 2) f (snd (consume (S log') fe ro))
       end
     else None).
  Proof using Type.
    cbn [verify_steps]. unfold consume. destruct ro as [|[rows v] ro']; [reflexivity|]. destruct (rows =? S log')%nat; reflexivity.
  Qed.

  Section Prover.
    Hypothesis Hmm : complete_mmcs mmcs_commit mmcs_matrix mmcs_open mmcs_verify.
    Variables (ins rest : list (list K)) (k0 : nat).
    Hypothesis HD : decreasing ins.
    Hypothesis HP : pow2_lengths ins.
    (** What holds of the folded vectors, [low k] for low-degree inputs. *)
    Variable Good : nat -> list K -> Prop.
    Hypothesis Glen : forall k f, Good k f -> length f = (2 ^ k)%nat.
    Hypothesis Gfold : forall k f m beta f', (lb <= k)%nat -> (S k <= adicity)%nat -> Good (S k) f -> leaves (add_inputs f ins) = Some m ->
      fold_matrix adicity root threads beta m = Some f' -> Good k f'.
    Hypothesis Hrest : forall g, (length g < 2 ^ k0)%nat -> add_inputs g rest = add_inputs g ins.

    Lemma commit_loop_spec d : forall k f ch fuel, k = (lb + d)%nat -> (d <= fuel)%nat -> (k <= adicity)%nat -> (k <= k0)%nat -> Good k f ->
      exists cs last ch' fl betas,
        loop fuel (add_inputs f ins) rest ch = Some (cs, last, ch') /\ length cs = d /\
        last = add_inputs fl ins /\ Good lb fl /\ betas_of (map fst cs) ch = (betas, ch') /\
        forall index, (index < 2 ^ k)%nat -> exists ans steps,
          answer index (map snd cs) = Some ans /\ zip betas (map fst cs) ans = Some steps /\
          vsteps steps k index (nth index f 0) (openings_at k index (remaining k ins)) =
            Some (Nat.div index (2 ^ d), nth (Nat.div index (2 ^ d)) fl 0, openings_at lb (Nat.div index (2 ^ d)) (remaining lb ins)).
    Proof.
      induction d as [|d IH]; intros k f ch fuel -> Hfu Ha Hk0 Hf.
      - rewrite Nat.add_0_r in *. exists [], (add_inputs f ins), ch, f, []. split.
        { destruct fuel; cbn [commit_loop]; rewrite add_inputs_length, (Glen _ _ Hf), Nat.leb_refl; reflexivity. }
        split; [reflexivity|]. split; [reflexivity|]. split; [exact Hf|]. split; [reflexivity|].
        intros index Hi. exists [], []. split; [reflexivity|]. split; [reflexivity|]. cbn [verify_steps]. cbn [Nat.pow]. rewrite Nat.div_1_r. reflexivity.
      - destruct fuel as [|fuel]; [lia|]. replace (lb + S d)%nat with (S (lb + d)) in * by lia. set (k' := (lb + d)%nat) in *.
        pose proof (Glen _ _ Hf) as Lf. set (F := add_inputs f ins) in *. assert (LF : length F = (2 ^ S k')%nat) by (unfold F; rewrite add_inputs_length; exact Lf).
        assert (Hk' : (lb <= k')%nat) by (unfold k'; lia).
        pose proof (leaves_spec K (2 ^ k') F LF) as E1. set (m := map _ _) in E1.
        assert (E2 : length m = (2 ^ k')%nat) by (unfold m; rewrite map_length, seq_length; reflexivity).
        assert (E3 : Forall (fun row => length row = 2%nat) m).
        { unfold m. apply Forall_forall. intros row Hr. apply in_map_iff in Hr. destruct Hr as (i & <- & _). reflexivity. }
        assert (E4 : forall i, (i < 2 ^ k')%nat -> nth i m [] = [nth (2 * i) F 0; nth (2 * i + 1) F 0]).
        { intros i Hi. unfold m. apply nth_error_nth. rewrite nth_error_map, (nth_error_nth' _ 0%nat) by (rewrite seq_length; auto). rewrite seq_nth by auto. reflexivity. }
        destruct (Hmm k' m E2 E3) as (c & dd & Ec & Em & Eo).
        destruct (sample (observe_commitment ch c)) as [beta ch1] eqn:Es.
        destruct (fold_matrix_rows K adicity root Had Hroot threads beta k' m Ht ltac:(lia) Ha E2 E3) as (f' & E5 & Lf' & _).
        pose proof (Gfold k' f m beta f' Hk' Ha Hf E1 E5) as E6.
        destruct (IH k' f' ch1 fuel eq_refl ltac:(lia) ltac:(lia) ltac:(lia) E6) as (cs & last & ch' & fl & betas & I1 & I2 & I3 & I4 & I5 & I6).
        exists ((c, dd) :: cs), last, ch', fl, (beta :: betas). split.
        { cbn [commit_loop]. rewrite LF. replace (2 ^ S k' <=? 2 ^ lb)%nat with false.
          2:{ symmetry. apply Nat.leb_gt. apply Nat.pow_lt_mono_r; lia. }
          rewrite E1, Ec, Es, Em, E5. rewrite Hrest; [rewrite I1; reflexivity|].
          rewrite (Glen _ _ E6). apply Nat.pow_lt_mono_r; lia. }
        split; [cbn; lia|]. split; [exact I3|]. split; [exact I4|]. split.
        { cbn [map fst sample_betas]. rewrite Es, I5. reflexivity. }
        intros index Hi. pose proof (half_lt index k' Hi) as Hh. destruct (I6 (Nat.div index 2) Hh) as (ans & steps & A1 & A2 & A3).
        destruct (Eo (Nat.div index 2) Hh) as (pf & O1 & O2).
        set (a := nth (2 * Nat.div index 2) F 0). set (b := nth (2 * Nat.div index 2 + 1) F 0).
        assert (Er : nth (Nat.div index 2) m [] = [a; b]) by (rewrite E4; auto).
        exists ((if Nat.odd index then a else b, pf) :: ans), ((beta, c, (if Nat.odd index then a else b, pf)) :: steps). split.
        { cbn [map snd answer_query]. rewrite O1, Er, A1. reflexivity. }
        split. { cbn [map fst zip_steps]. rewrite A2. reflexivity. }
        rewrite verify_steps_cons. rewrite (consume_step K ins k' f index) by auto. fold F. cbn [fst snd].
        assert (Ee : (if Nat.odd index then [(if Nat.odd index then a else b); nth index F 0] else [nth index F 0; (if Nat.odd index then a else b)]) = nth (Nat.div index 2) m []).
        { rewrite Er. pose proof (row_at K F index) as RA. fold a b in RA. rewrite <- RA. destruct (Nat.odd index); reflexivity. }
        cbv zeta. rewrite Ee, O2.
        destruct (fold_matrix_rows K adicity root Had Hroot threads beta k' m Ht ltac:(lia) Ha E2 E3) as (f2 & G1 & G2 & G3).
        assert (f2 = f') by congruence. subst f2. rewrite G3 by auto. rewrite (nth_error_nth' _ 0) by lia.
        rewrite A3. rewrite !Nat.div_div by (try apply pow2_nz; lia). cbn [Nat.pow]. reflexivity.
    Qed.
  End Prover.

  Section General.
    Hypothesis Hmm : complete_mmcs mmcs_commit mmcs_matrix mmcs_open mmcs_verify.
    Variables (ins : list (list K)) (k0 : nat).
    Hypothesis Hne : exists first rest, ins = first :: rest /\ length first = (2 ^ k0)%nat.
    Hypothesis HD : decreasing ins.
    Hypothesis HPW : pow2_lengths ins.
    Hypothesis Hk : (lb <= k0)%nat.
    Hypothesis Hk0 : (k0 <= adicity)%nat.
    Variable Good : nat -> list K -> Prop.
    Hypothesis Glen : forall k f, Good k f -> length f = (2 ^ k)%nat.
    Hypothesis Gfold : forall k f m beta f', (lb <= k)%nat -> (S k <= adicity)%nat -> Good (S k) f -> leaves (add_inputs f ins) = Some m ->
      fold_matrix adicity root threads beta m = Some f' -> Good k f'.
    Hypothesis Gstart : Good k0 (repeat 0 (2 ^ k0)).
    Hypothesis Gend : forall f, Good lb f -> exists z, forall i, (i < 2 ^ lb)%nat -> nth_error (add_inputs f ins) i = Some z.

    Lemma first_vector first rest : ins = first :: rest -> length first = (2 ^ k0)%nat ->
      add_inputs (repeat 0 (2 ^ k0)) ins = first /\ Forall (fun v => (length v <= 2 ^ k0)%nat) ins /\ (forall g, (length g < 2 ^ k0)%nat -> add_inputs g rest = add_inputs g ins).
    Proof.
      intros E Hf. pose proof HD as HD'. rewrite E in HD'. apply StronglySorted_inv in HD'. destruct HD' as [_ HS]. split; [|split].
      - rewrite E. cbn [add_inputs]. rewrite repeat_length, Hf, Nat.eqb_refl. rewrite add_inputs_small.
        + apply nth_ext with (d := 0) (d' := 0); [rewrite add_vectors_length; rewrite repeat_length; auto|].
          intros i Hi. rewrite add_vectors_length in Hi by (rewrite repeat_length; auto). rewrite repeat_length in Hi.
          rewrite add_vectors_nth by (rewrite repeat_length; auto). rewrite nth_repeat. ring.
        + rewrite add_vectors_length by (rewrite repeat_length; auto). rewrite repeat_length. eapply Forall_impl; [|exact HS]. cbv beta. intros; lia.
      - rewrite E. constructor; [lia|]. eapply Forall_impl; [|exact HS]. cbv beta. intros; lia.
      - intros g Hg. rewrite E. cbn [add_inputs]. rewrite (proj2 (Nat.eqb_neq _ _)) by lia. reflexivity.
    Qed.
    Lemma commit_phase_general ch : exists cs z fl ch1 betas,
      commit_phase K adicity root threads Com Data mmcs_commit mmcs_matrix Ch observe_commitment observe_value sample lb ins ch = Some (cs, z, observe_value ch1 z) /\
      length cs = (k0 - lb)%nat /\ betas_of (map fst cs) ch = (betas, ch1) /\ length fl = (2 ^ lb)%nat /\
      (forall i, (i < 2 ^ lb)%nat -> nth_error (add_inputs fl ins) i = Some z) /\
      forall index, (index < 2 ^ k0)%nat -> exists ans steps,
          answer index (map snd cs) = Some ans /\ zip betas (map fst cs) ans = Some steps /\
          vsteps steps k0 index 0 (openings_at k0 index ins) =
            Some (Nat.div index (2 ^ (k0 - lb)), nth (Nat.div index (2 ^ (k0 - lb))) fl 0, openings_at lb (Nat.div index (2 ^ (k0 - lb))) (remaining lb ins)).
    Proof.
      destruct Hne as (first & rest & E & Hf). destruct (first_vector first rest E Hf) as (V1 & V2 & V3).
      destruct (commit_loop_spec Hmm ins rest k0 HD HPW Good Glen Gfold V3 (k0 - lb) k0 (repeat 0 (2 ^ k0)) ch k0 ltac:(lia) ltac:(lia) Hk0 (le_n _) Gstart)
        as (cs & last & ch' & fl & betas & I1 & I2 & I3 & I4 & I5 & I6).
      destruct (Gend fl I4) as (z & Hz). pose proof (Glen _ _ I4) as Lfl.
      exists cs, z, fl, ch', betas. split.
      { unfold commit_phase. rewrite E. rewrite Hf, checked_log2_pow2 by lia. rewrite Nat2Z.id. rewrite V1 in I1. rewrite I1, I3.
        assert (LF : length (add_inputs fl ins) = (2 ^ lb)%nat) by (rewrite add_inputs_length; exact Lfl). rewrite LF, Nat.eqb_refl. destruct (add_inputs fl ins) as [|z' l]; [pose proof (pow2_1 lb); cbn in LF; lia|].
        specialize (Hz 0%nat (pow2_1 lb)). cbn in Hz. injection Hz as ->. reflexivity. }
      split; [exact I2|]. split; [exact I5|]. split; [exact Lfl|]. split; [exact Hz|].
      intros index Hi. destruct (I6 index Hi) as (ans & steps & A1 & A2 & A3). exists ans, steps. split; [exact A1|]. split; [exact A2|].
      rewrite nth_repeat, (remaining_all K k0 ins V2) in A3. exact A3.
    Qed.

    Variable open_p : nat -> InProof.
    Hypothesis Hbits : forall n ch, (fst (sample_bits n ch) < 2 ^ n)%nat.

    Lemma answer_queries_spec data : (forall index, (index < 2 ^ k0)%nat -> exists ans, answer index data = Some ans) ->
      forall n ch, exists qs ch', answer_queries K Data Pf mmcs_open Ch sample_bits InProof n k0 open_p data ch = Some (qs, ch') /\ length qs = n.
    Proof.
      intros Hd. induction n as [|n IH]; intros ch; [exists [], ch; auto|]. cbn [answer_queries].
      pose proof (Hbits k0 ch) as Hb. destruct (sample_bits k0 ch) as [index ch1]. cbn in Hb. destruct (Hd index Hb) as (ans & ->).
      destruct (IH ch1) as (qs & ch' & -> & Hl). eexists _, _. split; [reflexivity|]. cbn. lia.
    Qed.
    (** Prove succeeds. *)
    Lemma prove_general ch : exists proof ch',
      prove K adicity root threads Com Data Pf mmcs_commit mmcs_matrix mmcs_open Ch Wit observe_commitment observe_value sample grind sample_bits InProof lb num_queries ins ch open_p = Some (proof, ch') /\
      length (commits _ _ _ _ _ proof) = (k0 - lb)%nat /\ length (queries _ _ _ _ _ proof) = num_queries.
    Proof.
      destruct (commit_phase_general ch) as (cs & z & fl & ch1 & betas & E1 & E2 & E3 & Lfl & E4 & E5).
      destruct Hne as (first & rest & E & Hf). unfold prove. rewrite E1. replace (hd [] ins) with first by (rewrite E; reflexivity). rewrite Hf, checked_log2_pow2 by lia. rewrite Nat2Z.id.
      destruct (grind (observe_value ch1 z)) as [w ch2].
      destruct (answer_queries_spec (map snd cs)) with (n := num_queries) (ch := ch2) as (qs & ch3 & -> & Hl).
      { intros index Hi. destruct (E5 index Hi) as (ans & _ & H & _). eauto. }
      eexists _, _. split; [reflexivity|]. cbn. rewrite map_length. auto.
    Qed.

    (** An honest proof verifies. *)
    Hypothesis Hbig : Forall (fun v => (2 ^ lb < length v)%nat) ins.
    Hypothesis Hcheck : forall ch, check_witness ch (fst (grind ch)) = (true, snd (grind ch)).
    Variable open_v : nat -> InProof -> option (list (nat * K)).
    Hypothesis Hopen : forall index, (index < 2 ^ k0)%nat -> open_v index (open_p index) = Some (openings_at k0 index ins).

    Lemma fri_general ch : exists proof ch',
      prove K adicity root threads Com Data Pf mmcs_commit mmcs_matrix mmcs_open Ch Wit observe_commitment observe_value sample grind sample_bits InProof lb num_queries ins ch open_p = Some (proof, ch') /\
      verify K adicity root Com Pf mmcs_verify Ch Wit observe_commitment observe_value sample check_witness sample_bits InProof lb num_queries proof ch open_v = Some (true, ch').
    Proof.
      destruct (commit_phase_general ch) as (cs & z & fl & ch1 & betas & E1 & E2 & E3 & Lfl & E4 & E5).
      assert (Hrem : remaining lb ins = []).
      { apply remaining_none. exact Hbig. }
      rewrite add_inputs_small in E4.
      2:{ rewrite Lfl. eapply Forall_impl; [|exact Hbig]. cbv beta. intros; lia. }
      destruct Hne as (first & rest & E & Hf). unfold prove. rewrite E1. replace (hd [] ins) with first by (rewrite E; reflexivity). rewrite Hf, checked_log2_pow2 by lia. rewrite Nat2Z.id.
      pose proof (Hcheck (observe_value ch1 z)) as Hc. destruct (grind (observe_value ch1 z)) as [w ch2]. cbn [fst snd] in Hc.
      assert (Hq : forall n ch2, exists qs ch', answer_queries K Data Pf mmcs_open Ch sample_bits InProof n k0 open_p (map snd cs) ch2 = Some (qs, ch') /\ length qs = n /\
        verify_queries K adicity root Com Pf mmcs_verify Ch sample_bits InProof lb k0 betas (map fst cs) z open_v qs ch2 = Some (true, ch')).
      { clear - E5 E4 Hbits Hopen Lfl Hrem Hk. induction n as [|n IH]; intros ch2; [exists [], ch2; auto|]. cbn [answer_queries].
        pose proof (Hbits k0 ch2) as Hb. destruct (sample_bits k0 ch2) as [index ch3] eqn:Eb. cbn in Hb. destruct (E5 index Hb) as (ans & steps & A1 & A2 & A3).
        rewrite A1. destruct (IH ch3) as (qs & ch' & Q1 & Q2 & Q3). rewrite Q1. eexists _, _. split; [reflexivity|]. split; [cbn; lia|].
        cbn [verify_queries]. rewrite Eb, (Hopen index Hb), A2. unfold verify_query. rewrite A3, Hrem. cbn [openings_at map].
        assert (Hd : (Nat.div index (2 ^ (k0 - lb)) < 2 ^ lb)%nat).
        { apply Nat.div_lt_upper_bound; [apply pow2_nz|]. rewrite <- Nat.pow_add_r. replace (k0 - lb + lb)%nat with k0 by lia. exact Hb. }
        rewrite (proj2 (Nat.ltb_lt _ _) Hd). rewrite (nth_error_nth _ _ _ (E4 _ Hd)), feqb_refl. exact Q3. }
      destruct (Hq num_queries ch2) as (qs & ch3 & Q1 & Q2 & Q3). rewrite Q1. eexists _, _. split; [reflexivity|].
      unfold verify. cbn [commits queries final_eval pow_witness]. rewrite E3, Q2, Nat.eqb_refl, Hc, map_length, E2. cbn [negb].
      replace (k0 - lb + lb)%nat with k0 by lia. exact Q3.
    Qed.
  End General.

  Section Whole.
    Hypothesis Hmm : complete_mmcs mmcs_commit mmcs_matrix mmcs_open mmcs_verify.
    Variables (ins : list (list K)) (k0 : nat).
    Hypothesis Hne : exists first rest, ins = first :: rest /\ length first = (2 ^ k0)%nat.
    Hypothesis HD : decreasing ins.
    Hypothesis HL : forall v, In v ins -> exists k, low k v.
    Hypothesis Hk0 : (k0 <= adicity)%nat.

    Lemma lows_pow2 : pow2_lengths ins.
    Proof.
      apply Forall_forall. intros v Hv. destruct (HL v Hv) as (k & Hk). rewrite (low_length _ _ _ _ _ _ Hk), Nat.log2_pow2 by lia. reflexivity.
    Qed.
    Lemma lows_log v : In v ins -> low (Nat.log2 (length v)) v.
    Proof. intros Hv. destruct (HL v Hv) as (k & Hk). rewrite (low_length _ _ _ _ _ _ Hk), Nat.log2_pow2 by lia. exact Hk. Qed.

    Lemma k0_lb : (lb <= k0)%nat.
    Proof.
      destruct Hne as (first & rest & E & Hf). destruct (HL first) as (k & Hk); [rewrite E; left; reflexivity|].
      pose proof (low_length _ _ _ _ _ _ Hk) as L. rewrite Hf in L. apply Nat.pow_inj_r in L; [|lia]. subst k. apply Hk.
    Qed.

    Variable open_p : nat -> InProof.
    Hypothesis Hbits : forall n ch, (fst (sample_bits n ch) < 2 ^ n)%nat.
    Lemma low_folds k f m beta f' : (lb <= k)%nat -> (S k <= adicity)%nat -> low (S k) f -> leaves (add_inputs f ins) = Some m ->
      fold_matrix adicity root threads beta m = Some f' -> low k f'.
    Proof.
      intros H1 H3 Hf Hm Hf'. assert (HF : low (S k) (add_inputs f ins)) by (apply low_add_inputs; auto using lows_pow2, lows_log).
      destruct (low_fold K adicity root Had Hroot H2 lb threads beta k _ Ht Hlb H1 H3 HF) as (m' & f2 & E1 & _ & _ & _ & E5 & E6). congruence.
    Qed.
    Lemma low_ends f : low lb f -> exists z, forall i, (i < 2 ^ lb)%nat -> nth_error (add_inputs f ins) i = Some z.
    Proof. intros Hf. apply (low_const K adicity root Had). apply low_add_inputs; auto using lows_pow2, lows_log. Qed.
    Lemma prove_succeeds ch : exists proof ch',
      prove K adicity root threads Com Data Pf mmcs_commit mmcs_matrix mmcs_open Ch Wit observe_commitment observe_value sample grind sample_bits InProof lb num_queries ins ch open_p = Some (proof, ch') /\
      length (commits _ _ _ _ _ proof) = (k0 - lb)%nat /\ length (queries _ _ _ _ _ proof) = num_queries.
    Proof.
      apply (prove_general Hmm ins k0 Hne HD lows_pow2 k0_lb Hk0 low (low_length K adicity root lb) low_folds (low_zero K adicity root Had lb k0 k0_lb) low_ends open_p Hbits).
    Qed.

    Hypothesis Hbig : Forall (fun v => (2 ^ lb < length v)%nat) ins.
    Hypothesis Hcheck : forall ch, check_witness ch (fst (grind ch)) = (true, snd (grind ch)).
    Variable open_v : nat -> InProof -> option (list (nat * K)).
    Hypothesis Hopen : forall index, (index < 2 ^ k0)%nat -> open_v index (open_p index) = Some (openings_at k0 index ins).
    Lemma fri_complete ch : exists proof ch',
      prove K adicity root threads Com Data Pf mmcs_commit mmcs_matrix mmcs_open Ch Wit observe_commitment observe_value sample grind sample_bits InProof lb num_queries ins ch open_p = Some (proof, ch') /\
      verify K adicity root Com Pf mmcs_verify Ch Wit observe_commitment observe_value sample check_witness sample_bits InProof lb num_queries proof ch open_v = Some (true, ch').
    Proof.
      apply (fri_general Hmm ins k0 Hne HD lows_pow2 k0_lb Hk0 low (low_length K adicity root lb) low_folds (low_zero K adicity root Had lb k0 k0_lb) low_ends open_p Hbits Hbig Hcheck open_v Hopen).
    Qed.
  End Whole.

  (** Every query accepted: the committed matrices are honest foldings. *)
  Lemma queries_bind ins final cs : forall mats betas k f, (k = lb + length cs)%nat -> (k <= adicity)%nat -> length betas = length cs ->
    decreasing ins -> pow2_lengths ins -> Forall (fun v => (2 ^ lb < length v)%nat) ins -> length f = (2 ^ k)%nat ->
    all_bind mmcs_verify cs k mats ->
    (forall index, (index < 2 ^ k)%nat -> exists openings steps index', zip betas cs openings = Some steps /\
       vsteps steps k index (nth index f 0) (openings_at k index (remaining k ins)) = Some (index', final, [])) ->
    honest_folding adicity root threads ins final k f betas mats.
  Proof using Had Hroot Ht Hlb.
    clear mmcs_commit mmcs_matrix mmcs_open observe_commitment observe_value sample grind check_witness sample_bits num_queries H2. clear Data Ch Wit InProof.
    induction cs as [|c cs IH]; intros mats betas k f -> Ha Hlen HD HP Hbig Hf HB HQ.
    - destruct betas; [|discriminate]. destruct mats; [|destruct HB]. cbn [honest_folding]. cbn [length] in *. rewrite Nat.add_0_r in *.
      intros i Hi. destruct (HQ i Hi) as (op & steps & index' & Z & V). cbn in Z. injection Z as <-. cbn in V. injection V as _ V _.
      rewrite (nth_error_nth' _ 0) by lia. rewrite V. reflexivity.
    - destruct betas as [|beta betas]; [discriminate|]. destruct mats as [|m mats]; [destruct HB|]. destruct HB as (k' & Ek & (Bm & Br & Bo) & HB).
      cbn [length] in *. replace (lb + S (length cs))%nat with (S (lb + length cs)) in * by lia. injection Ek as <-. set (k' := (lb + length cs)%nat) in *.
      set (F := add_inputs f ins) in *. assert (LF : length F = (2 ^ S k')%nat) by (unfold F; rewrite add_inputs_length; auto).
      destruct (fold_matrix_rows K adicity root Had Hroot threads beta k' m Ht ltac:(unfold k'; lia) Ha Bm Br) as (f' & G1 & G2 & G3).
      assert (HS : forall index, (index < 2 ^ S k')%nat -> exists sib openings steps index', 
        (if Nat.odd index then [sib; nth index F 0] else [nth index F 0; sib]) = nth (Nat.div index 2) m [] /\
        zip betas cs openings = Some steps /\
        vsteps steps k' (Nat.div index 2) (nth (Nat.div index 2) f' 0) (openings_at k' (Nat.div index 2) (remaining k' ins)) = Some (index', final, [])).
      { intros index Hi. pose proof (half_lt index k' Hi) as Hh. destruct (HQ index Hi) as (op & steps & index' & Z & V).
        destruct op as [|[sib pf] op]; cbn [zip_steps] in Z; [discriminate|]. destruct (zip betas cs op) as [steps'|] eqn:Ez; [|discriminate]. injection Z as <-.
        rewrite verify_steps_cons, (consume_step K ins k' f index) in V by auto. fold F in V. cbn [fst snd] in V. cbv zeta in V.
        set (ev := if Nat.odd index then _ else _) in V. destruct (mmcs_verify c (2%nat, (2 ^ k')%nat) (Nat.div index 2) [ev] pf) eqn:Ev; [|discriminate].
        apply Bo in Ev; [|exact Hh]. injection Ev as Ev. rewrite Ev, G3 in V by exact Hh. rewrite (nth_error_nth' f' 0) in V by (rewrite G2; exact Hh).
        exists sib, op, steps', index'. split; [exact Ev|]. split; [exact Ez|]. exact V. }
      cbn [honest_folding]. exists k', f'. split; [reflexivity|]. split; [|split; [exact G1|]].
      + fold F. rewrite (leaves_spec K (2 ^ k')) by (rewrite LF; reflexivity). f_equal. apply nth_ext with (d := []) (d' := []).
        { rewrite map_length, seq_length. auto. }
        intros i Hi. rewrite map_length, seq_length in Hi. erewrite nth_error_nth; [|rewrite nth_error_map, (nth_error_nth' _ 0%nat) by (rewrite seq_length; auto); rewrite seq_nth by auto; reflexivity].
        cbn [plus]. assert (P2 : (2 ^ S k' = 2 * 2 ^ k')%nat) by reflexivity.
        destruct (HS (2 * i)%nat ltac:(lia)) as (s1 & _ & _ & _ & R1 & _). destruct (HS (2 * i + 1)%nat ltac:(lia)) as (s2 & _ & _ & _ & R2 & _).
        rewrite Nat.odd_mul in R1. cbn [Nat.odd Nat.even negb andb] in R1.
        replace (Nat.odd (2 * i + 1)) with true in R2 by (rewrite Nat.odd_add, Nat.odd_mul; reflexivity).
        replace (Nat.div (2 * i) 2) with i in R1 by (rewrite Nat.mul_comm, Nat.div_mul; lia).
        replace (Nat.div (2 * i + 1) 2) with i in R2 by (apply (Nat.div_unique _ _ _ 1); lia).
        rewrite <- R1. rewrite <- R1 in R2. injection R2 as _ R2. rewrite <- R2. reflexivity.
      + apply IH; auto; try lia. intros i Hi. assert (P2 : (2 ^ S k' = 2 * 2 ^ k')%nat) by reflexivity.
        destruct (HS (2 * i)%nat ltac:(lia)) as (s1 & op & steps & index' & _ & Z & V).
        replace (Nat.div (2 * i) 2) with i in V by (rewrite Nat.mul_comm, Nat.div_mul; lia). eauto.
  Qed.

  (** The reduced opening of an input of exactly 2^lb rows is never consumed. *)
  Lemma verify_steps_keeps steps : forall k index fe ro index' fe' ro' v, k = (lb + length steps)%nat -> In (lb, v) ro ->
    vsteps steps k index fe ro = Some (index', fe', ro') -> In (lb, v) ro'.
  Proof using Type.
    clear mmcs_commit mmcs_matrix mmcs_open observe_commitment observe_value sample grind check_witness sample_bits num_queries Had Hlb Hroot H2 Ht. clear Data Ch Wit InProof.
    induction steps as [|[[beta c] [sib pf]] steps IH]; intros k index fe ro index' fe' ro' v -> Hin E.
    - cbn in E. injection E as _ _ <-. exact Hin.
    - cbn [length] in E. replace (lb + S (length steps))%nat with (S (lb + length steps)) in E by lia. rewrite verify_steps_cons in E. cbv zeta in E.
      destruct (mmcs_verify _ _ _ _ _); [|discriminate]. destruct (fold_row _ _ _ _ _ _); [|discriminate].
      eapply IH; [reflexivity| |exact E]. unfold consume. destruct ro as [|[rows w] ro1]; [exact Hin|].
      destruct (Nat.eqb_spec rows (S (lb + length steps))) as [->|]; [|exact Hin]. cbn [snd]. destruct Hin as [Hin|Hin]; [|exact Hin].
      injection Hin as Hin _. lia.
  Qed.
  Lemma zip_length betas : forall cs op steps, zip betas cs op = Some steps -> length steps = length cs.
  Proof using Type.
    induction betas as [|b bs IH]; intros [|c cs] op steps E; cbn in E; try discriminate.
    - injection E as <-. reflexivity.
    - destruct op as [|o op]; [discriminate|]. destruct (zip bs cs op) eqn:Ez; [|discriminate]. injection E as <-. cbn. f_equal. eapply IH; eauto.
  Qed.
  Lemma small_input_never_verifies proof ch open_v ch' :
    (forall index inp ro, open_v index inp = Some ro -> exists v, In (lb, v) ro) -> (0 < num_queries)%nat ->
    verify K adicity root Com Pf mmcs_verify Ch Wit observe_commitment observe_value sample check_witness sample_bits InProof lb num_queries proof ch open_v <> Some (true, ch').
  Proof using Type.
    clear mmcs_commit mmcs_matrix mmcs_open grind Had Hlb Hroot H2 Ht. clear Data.
    intros Hopen Hn E. unfold verify in E. destruct (betas_of (commits K Com Pf Wit InProof proof) ch) as [betas ch1].
    destruct (Nat.eqb_spec (length (queries K Com Pf Wit InProof proof)) num_queries) as [Hq|]; [|discriminate]. cbn [negb] in E.
    destruct (check_witness _ _) as [[] ch3]; [|discriminate].
    destruct (queries K Com Pf Wit InProof proof) as [|[inp op] qs]; [cbn in Hq; lia|]. cbn [verify_queries] in E.
    destruct (sample_bits _ _) as [index ch4]. destruct (open_v index inp) as [ro|] eqn:Ero; [|discriminate].
    destruct (zip betas _ op) as [steps|] eqn:Ez; [|discriminate]. apply zip_length in Ez.
    destruct (Hopen _ _ _ Ero) as (v & Hv). unfold verify_query in E.
    destruct (vsteps steps _ index 0 ro) as [[[index' fe'] ro']|] eqn:Ev; [|discriminate].
    apply (verify_steps_keeps _ _ _ _ _ _ _ _ v) in Ev; [|rewrite Ez; lia|exact Hv]. destruct ro'; [destruct Ev|discriminate].
  Qed.
End Main.
