(** The challengers produce the challenges of the specification. *)
From Coq Require Import ZArith List Bool Arith Lia.
From Verif Require Import BigIntModel SpongeModel SpongeProof SpongeExtra ParallelizeModel ChallengerModel ChallengerSpec.
Import ListNotations.
Open Scope nat_scope.

Definition ops_of {F : Type} (rounds : list (list F * nat)) : list (op F) :=
  concat (map (fun r => map Observe (fst r) ++ repeat Sample (snd r)) rounds).

Lemma pop_back_app : forall {F} (l : list F) x, pop_back (l ++ [x]) = Some (x, l).
Proof.
  induction l as [|a l IH]; intros x; [reflexivity|]. cbn [app pop_back]. rewrite IH. destruct (l ++ [x]) eqn:E; [now destruct l|reflexivity].
Qed.
Lemma pop_back_rev : forall {F} (l : list F), l <> [] -> exists x r, pop_back l = Some (x, r) /\ rev l = x :: rev r /\ length l = S (length r).
Proof.
  intros F l H. destruct (exists_last H) as (r & x & ->). exists x, r. split; [apply pop_back_app|]. split; [now rewrite rev_app_distr|]. rewrite app_length. cbn. lia.
Qed.

Section Run.
  Context {F C : Type}.
  Variables (obs : C -> F -> option C) (smp : C -> option (F * C)).
  Lemma run_app : forall a b c, run obs smp (a ++ b) c =
    match run obs smp a c with
    | Some (xs, c') => match run obs smp b c' with Some (ys, c'') => Some (xs ++ ys, c'') | None => None end
    | None => None
    end.
  Proof.
    induction a as [|o a IH]; intros b c.
    - cbn. destruct (run obs smp b c) as [[? ?]|]; reflexivity.
    - destruct o as [x|]; cbn [run app].
      + destruct (obs c x); [apply IH|reflexivity].
      + destruct (smp c) as [[y c']|]; [|reflexivity]. rewrite IH. destruct (run obs smp a c') as [[xs c'']|]; [|reflexivity].
        destruct (run obs smp b c'') as [[? ?]|]; reflexivity.
  Qed.
End Run.

Lemma ceil_step : forall k W, 1 <= W -> (k + W) / W = S (k / W).
Proof. intros k W H. replace (k + W) with (k + 1 * W) by lia. rewrite Nat.div_add by lia. lia. Qed.

Lemma firstn_cong : forall {A} n (a b b' : list A), firstn (n - length a) b = firstn (n - length a) b' -> firstn n (a ++ b) = firstn n (a ++ b').
Proof. intros A n a b b' H. rewrite !firstn_app. now f_equal. Qed.
Lemma firstn_less : forall {A} m n (b b' : list A), m <= n -> firstn n b = firstn n b' -> firstn m b = firstn m b'.
Proof. intros A m n b b' L H. apply (f_equal (firstn m)) in H. rewrite !firstn_firstn in H. now replace (Nat.min m n) with m in H by lia. Qed.

Section Generic.
  Context {F B : Type}.
  Variables (put : list F -> list B -> option (list B)) (get : list B -> option (list F)) (perm : list B -> list B) (R : nat).
  Variables (put' : list F -> list B -> list B) (get' : list B -> list F) (V : list B -> Prop) (N : nat).
  Hypothesis R_pos : 1 <= R.
  Hypothesis N_pos : 1 <= N.
  Hypothesis put_ok : forall b l, V l -> length b <= R -> put b l = Some (put' b l).
  Hypothesis put_V : forall b l, V l -> length b <= R -> V (put' b l).
  Hypothesis put_nil : forall l, V l -> put' [] l = l.
  Hypothesis perm_V : forall l, V l -> V (perm l).
  Hypothesis get_ok : forall l, V l -> get l = Some (get' l).
  Hypothesis get_length : forall l, V l -> length (get' l) = N.

  Notation obs := (observe put get perm R).
  Notation smp := (sample put get perm).
  Notation absorb := (duplex_absorb put' perm R).
  Notation blocks := (duplex_blocks put' perm R).

  Definition valid (c : duplex F B) : Prop := V (state c) /\ length (input_buffer c) < R /\ length (output_buffer c) <= N.

  Lemma duplexing_ok : forall c, V (state c) -> length (input_buffer c) <= R ->
    duplexing put get perm c = Some (mk_duplex (perm (put' (input_buffer c) (state c))) [] (get' (perm (put' (input_buffer c) (state c))))).
  Proof. intros c HV HR. unfold duplexing. rewrite put_ok by auto. rewrite get_ok by auto. reflexivity. Qed.

  Lemma observe_ok : forall c x, valid c -> exists c', obs c x = Some c' /\ valid c' /\
    ((length (input_buffer c) + 1 = R /\ c' = let s := perm (put' (input_buffer c ++ [x]) (state c)) in mk_duplex s [] (get' s)) \/
     (length (input_buffer c) + 1 < R /\ c' = mk_duplex (state c) (input_buffer c ++ [x]) [])).
  Proof.
    intros c x (HV & HR & HN). unfold observe. cbn [input_buffer]. assert (L : length (input_buffer c ++ [x]) = length (input_buffer c) + 1) by (rewrite app_length; reflexivity).
    rewrite L. destruct (Nat.eqb_spec (length (input_buffer c) + 1) R) as [E|E].
    - rewrite duplexing_ok by (cbn; auto; lia). eexists. split; [reflexivity|]. split; [|left; split; [exact E|reflexivity]].
      split; cbn; [apply perm_V, put_V; auto; lia|]. split; [lia|]. rewrite get_length; [lia|]. apply perm_V, put_V; auto; lia.
    - eexists. split; [reflexivity|]. split; [|right; split; [lia|reflexivity]]. split; cbn [state input_buffer output_buffer]; [exact HV|]. rewrite L. cbn. lia.
  Qed.

  Lemma sample_ok : forall c, valid c -> exists y c', smp c = Some (y, c') /\ valid c' /\ input_buffer c' = [] /\
    let c0 := if negb (length (input_buffer c) =? 0) || (length (output_buffer c) =? 0) then
        let s := perm (put' (input_buffer c) (state c)) in mk_duplex s [] (get' s) else c in
    state c' = state c0 /\ rev (output_buffer c0) = y :: rev (output_buffer c') /\ length (output_buffer c0) = S (length (output_buffer c')).
  Proof.
    intros c (HV & HR & HN). unfold sample. destruct (negb (length (input_buffer c) =? 0) || (length (output_buffer c) =? 0)) eqn:E.
    - rewrite duplexing_ok by (auto; lia). cbv zeta. cbn [state input_buffer output_buffer].
      set (s := perm _). assert (Vs : V s) by (apply perm_V, put_V; auto; lia). assert (Ls := get_length s Vs).
      destruct (pop_back_rev (get' s)) as (y & r & Ep & Er & El); [intros Z; rewrite Z in Ls; cbn in Ls; lia|]. rewrite Ep.
      eexists. eexists. split; [reflexivity|]. cbn [state input_buffer output_buffer]. split; [|auto]. split; cbn [state input_buffer output_buffer]; [auto|]. cbn. lia.
    - apply orb_false_iff in E. destruct E as [E1 E2]. apply negb_false_iff, Nat.eqb_eq in E1. apply Nat.eqb_neq in E2. apply length_zero_iff_nil in E1.
      destruct (pop_back_rev (output_buffer c)) as (y & r & Ep & Er & El); [intros Z; rewrite Z in E2; cbn in E2; lia|]. rewrite Ep.
      eexists. eexists. split; [reflexivity|]. cbn [state input_buffer output_buffer]. split; [|auto]. split; cbn [state input_buffer output_buffer]; [auto|]. rewrite E1. cbn. lia.
  Qed.

  (** No operation is ever undefined, and the buffers stay within their bounds. *)
  Lemma run_valid : forall ops c, valid c -> exists ys c', run obs smp ops c = Some (ys, c') /\ valid c' /\ length ys = length (filter (fun o => match o with Sample => true | _ => false end) ops).
  Proof.
    induction ops as [|o ops IH]; intros c H; [exists [], c; auto|]. destruct o as [x|]; cbn [run].
    - destruct (observe_ok c x H) as (c' & E & H' & _). rewrite E. destruct (IH c' H') as (ys & c'' & E2 & H2 & L). exists ys, c''. auto.
    - destruct (sample_ok c H) as (y & c' & E & H' & _). rewrite E. destruct (IH c' H') as (ys & c'' & E2 & H2 & L). rewrite E2. exists (y :: ys), c''. cbn [filter length]. auto.
  Qed.

  Lemma blocks_fuel : forall f f' l xs, length xs <= f -> length xs <= f' -> blocks f l xs = blocks f' l xs.
  Proof.
    induction f as [|f IH]; intros f' l xs H H'.
    - destruct xs; [destruct f'; reflexivity|cbn in H; lia].
    - destruct xs as [|x xs]; [destruct f'; reflexivity|]. destruct f' as [|f']; [cbn in H'; lia|]. cbn [duplex_blocks]. apply IH; rewrite skipn_length; cbn [length] in *; lia.
  Qed.
  Lemma absorb_block : forall l b xs, b <> [] -> (length b = R \/ (length b < R /\ xs = [])) -> absorb l (b ++ xs) = absorb (perm (put' b l)) xs.
  Proof.
    intros l b xs Hb H. unfold duplex_absorb. destruct b as [|x b]; [now elim Hb|]. cbn [app length duplex_blocks].
    change (x :: b ++ xs) with ((x :: b) ++ xs).
    assert (E1 : firstn R ((x :: b) ++ xs) = x :: b).
    { destruct H as [H|[H ->]]; [now rewrite <- H, firstn_app, Nat.sub_diag, firstn_all, firstn_O, app_nil_r|]. rewrite app_nil_r. apply firstn_all2. lia. }
    assert (E2 : skipn R ((x :: b) ++ xs) = xs).
    { destruct H as [H|[H ->]]; [now rewrite <- H, skipn_app, Nat.sub_diag, skipn_all|]. rewrite app_nil_r. apply skipn_all2. lia. }
    rewrite E1, E2. apply blocks_fuel; [rewrite app_length; lia|lia].
  Qed.

  Definition fresh (c : duplex F B) : Prop := (input_buffer c = [] -> output_buffer c = get' (state c)) /\ (input_buffer c <> [] -> output_buffer c = []).

  Lemma observe_many : forall xs c, valid c -> exists c', run obs smp (map Observe xs) c = Some ([], c') /\ valid c' /\ (xs <> [] -> fresh c') /\
    forall ys, absorb (state c') (input_buffer c' ++ ys) = absorb (state c) (input_buffer c ++ xs ++ ys).
  Proof.
    induction xs as [|x xs IH]; intros c H; [exists c; repeat split; try apply H; now elim H0|].
    cbn [map run]. destruct (observe_ok c x H) as (c1 & E & H1 & Hc). rewrite E. destruct (IH c1 H1) as (c' & E' & H' & Fr & A).
    exists c'. split; [exact E'|]. split; [exact H'|]. split.
    - intros _. destruct xs as [|x2 xs]; [|apply Fr; discriminate]. cbn in E'. injection E' as <-.
      destruct Hc as [[_ ->]|[_ ->]]; split; cbn; auto; try congruence. intros Z. destruct (input_buffer c); discriminate.
    - intros ys. rewrite A. destruct Hc as [[HR ->]|[HR ->]]; cbn [state input_buffer app].
      + replace (input_buffer c ++ x :: xs ++ ys) with ((input_buffer c ++ [x]) ++ xs ++ ys) by (rewrite <- app_assoc; reflexivity).
        rewrite (absorb_block (state c) (input_buffer c ++ [x])); [reflexivity|destruct (input_buffer c); discriminate|left; rewrite app_length; cbn; lia].
      + f_equal. now rewrite <- app_assoc.
  Qed.

  Lemma stream_more : forall k s, V s -> firstn k (stream perm (fun s => rev (get' s)) k s) = firstn k (stream perm (fun s => rev (get' s)) (S k) s).
  Proof.
    induction k as [|k IH]; intros s HV; [reflexivity|]. cbn [stream]. apply firstn_cong. rewrite rev_length, get_length by exact HV.
    apply (firstn_less _ k); [lia|]. apply (IH (perm s)). auto.
  Qed.

  Lemma sample_many : forall k s o, V s -> length o <= N -> exists o', length o' <= N /\
    run obs smp (repeat Sample k) (mk_duplex s [] o) =
      Some (firstn k (rev o ++ stream perm (fun s => rev (get' s)) k (perm s)), mk_duplex (iterate perm ((k + (N - length o) - 1) / N) s) [] o').
  Proof.
    induction k as [|k IH]; intros s o HV HN.
    - exists o. split; [exact HN|]. cbn [repeat run firstn]. replace ((0 + (N - length o) - 1) / N) with 0; [reflexivity|]. symmetry. apply Nat.div_small. lia.
    - cbn [repeat run]. assert (Hv : valid (mk_duplex s [] o)) by (split; cbn; [auto|lia]).
      destruct (sample_ok _ Hv) as (y & c' & E & V' & Ei & Es & Er & El). rewrite E. cbn [input_buffer output_buffer length] in Es, Er, El. destruct c' as [s' i' o']. cbn [state input_buffer output_buffer] in *. subst i'.
      destruct o as [|a o].
      + cbn [length negb Nat.eqb orb] in Es, Er, El. cbn [state output_buffer] in *. rewrite put_nil in * by exact HV. subst s'.
        assert (HV' := perm_V s HV). cbn [length Nat.eqb negb orb output_buffer] in El. rewrite get_length in El by exact HV'.
        destruct (IH (perm s) o') as (o2 & H2 & E2); [exact HV'|lia|]. rewrite E2. exists o2. split; [exact H2|]. f_equal. f_equal.
        * cbn [rev app firstn stream]. rewrite Er. cbn [app firstn]. f_equal.
        * f_equal. cbn [length]. replace (N - length o') with 1 by lia. replace (k + 1 - 1) with k by lia. replace (S k + (N - 0) - 1) with (k + N) by lia. rewrite ceil_step by exact N_pos. reflexivity.
      + cbn [length negb Nat.eqb orb] in Es, Er, El. cbn [state output_buffer] in *. subst s'.
        destruct (IH s o') as (o2 & H2 & E2); [exact HV|cbn [length] in *; lia|]. rewrite E2. exists o2. split; [exact H2|]. f_equal. f_equal.
        * rewrite Er. cbn [app firstn]. f_equal. apply firstn_cong. apply (firstn_less _ k); [lia|]. apply stream_more; auto.
        * f_equal. f_equal. cbn [length] in *. f_equal. lia.
  Qed.

  Lemma iterate_V : forall n s, V s -> V (iterate perm n s).
  Proof. induction n as [|n IH]; intros s Vs; cbn [iterate]; auto. Qed.

  Lemma round_ok : forall xs k c, valid c -> xs <> [] -> 1 <= k -> 
    let s := absorb (state c) (input_buffer c ++ xs) in
    exists c', run obs smp (map Observe xs ++ repeat Sample k) c = Some (firstn k (stream perm (fun s => rev (get' s)) k s), c') /\
      valid c' /\ input_buffer c' = [] /\ state c' = iterate perm ((k - 1) / N) s.
  Proof.
    intros xs k c H Hx Hk s. rewrite run_app. destruct (observe_many xs c H) as (c1 & E1 & H1 & Fr & A). rewrite E1. specialize (Fr Hx). specialize (A []). rewrite !app_nil_r in A.
    assert (G : V s /\ run obs smp (repeat Sample k) c1 = run obs smp (repeat Sample k) (mk_duplex s [] (get' s))).
    { destruct c1 as [s1 i1 o1]. destruct H1 as (HV & HR & HN). cbn [state input_buffer output_buffer] in *. destruct Fr as [F1 F2]. cbn [state input_buffer output_buffer] in *. destruct i1 as [|x1 i1].
      - rewrite F1 by reflexivity. assert (Es : s = s1) by (unfold s; rewrite <- A; reflexivity). rewrite Es. auto.
      - rewrite F2 by discriminate. assert (Es : s = perm (put' (x1 :: i1) s1)).
        { unfold s. rewrite <- A. rewrite <- (app_nil_r (x1 :: i1)) at 1. rewrite absorb_block; [reflexivity|discriminate|right; auto]. }
        assert (Vs : V s) by (rewrite Es; apply perm_V, put_V; auto; lia). split; [exact Vs|].
        destruct k as [|k]; [lia|]. cbn [repeat run]. unfold sample at 1 3. cbn [input_buffer output_buffer length Nat.eqb negb orb].
        rewrite duplexing_ok by (cbn [state input_buffer]; auto; lia). cbn [state input_buffer]. rewrite <- Es. rewrite get_length by exact Vs.
        destruct (Nat.eqb_spec N 0); [lia|]. cbn [output_buffer state input_buffer]. reflexivity. }
    destruct G as [Vs G]. rewrite G. destruct (sample_many k s (get' s) Vs) as (o' & Ho & E2); [rewrite get_length by exact Vs; lia|]. rewrite E2. cbn [app].
    exists (mk_duplex (iterate perm ((k + (N - length (get' s)) - 1) / N) s) [] o'). split; [apply f_equal; apply (f_equal2 pair); [|reflexivity]|].
    - destruct k as [|k]; [lia|]. change (stream perm (fun s => rev (get' s)) (S k) s) with (rev (get' s) ++ stream perm (fun s => rev (get' s)) k (perm s)).
      apply firstn_cong. rewrite rev_length, get_length by exact Vs. apply (firstn_less _ k); [lia|]. symmetry. now apply stream_more, perm_V.
    - rewrite get_length by exact Vs. replace (k + (N - N) - 1) with (k - 1) by lia. split; [|auto]. split; cbn [state input_buffer output_buffer]; [|split; [cbn; lia|exact Ho]].
      now apply iterate_V.
  Qed.

  (** The challenges of every history of rounds. *)
  Lemma rounds_ok : forall rounds c, valid c -> input_buffer c = [] -> Forall (fun r => fst r <> [] /\ 1 <= snd r) rounds ->
    exists c', run obs smp (ops_of rounds) c = Some (challenges absorb perm (fun s => rev (get' s)) N (state c) rounds, c') /\ valid c'.
  Proof.
    induction rounds as [|[xs k] rounds IH]; intros c H Hi HF; [exists c; auto|]. inversion HF as [|? ? [H1 H2] HF']; subst. cbn [fst snd] in *.
    unfold ops_of. cbn [map concat fst snd]. rewrite run_app. destruct (round_ok xs k c H H1 H2) as (c1 & E1 & V1 & I1 & S1). rewrite E1. rewrite Hi in S1. cbn [app] in S1.
    destruct (IH c1 V1 I1 HF') as (c2 & E2 & V2). unfold ops_of in E2. rewrite E2. exists c2. split; [|exact V2]. cbn [challenges]. rewrite Hi. cbn [app]. rewrite S1. reflexivity.
  Qed.
End Generic.
