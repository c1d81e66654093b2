(** Proof of work: every execution of the parallel search. *)
From Coq Require Import ZArith List Bool Arith Lia.
From Verif Require Import BigIntModel ParallelizeModel ParallelizeSpec ParallelizeProof ParallelizeExtra ChallengerModel ChallengerSpec.
Import ListNotations.
Open Scope Z_scope.

Lemma tiles_le : forall calls idx pos stop, tiles idx pos calls stop -> pos <= stop.
Proof. induction calls as [|[[i s] l] r IH]; intros idx pos stop H; cbn in H; [lia|]. destruct H as (_ & -> & H & H'). apply IH in H'. lia. Qed.
Lemma tiles_min : forall c calls idx pos stop, tiles idx pos calls stop ->
  Forall (fun t => match t with (i, start, len) => start = i * c /\ 0 < len <= c end) calls ->
  Forall (fun t => match t with (i, start, len) => len = Z.min (stop - start) c /\ pos <= start /\ start + len <= stop end) calls.
Proof.
  intros c. induction calls as [|[[i s] l] r IH]; intros idx pos stop H HF; [constructor|]. cbn [tiles] in H. destruct H as (-> & -> & H & H').
  apply Forall_cons_iff in HF. destruct HF as [[H1 H2] HF']. pose proof (tiles_le _ _ _ _ H') as HL. constructor.
  - split; [|split; lia]. destruct r as [|[[i' s'] l'] r]; [cbn in H'; lia|]. apply Forall_cons_iff in HF'. destruct HF' as [[H3 H4] _]. cbn [tiles] in H'. destruct H' as (-> & E & _ & _). nia.
  - eapply Forall_impl; [|exact (IH _ _ _ H' HF')]. intros [[i0 s0] l0]. cbn. lia.
Qed.
Lemma tiles_cover : forall calls idx pos stop x, tiles idx pos calls stop -> pos <= x < stop ->
  exists i s l, In (i, s, l) calls /\ s <= x < s + l.
Proof.
  induction calls as [|[[i s] l] r IH]; intros idx pos stop x H Hx; cbn [tiles] in H; [lia|]. destruct H as (-> & -> & H & H').
  destruct (Z.lt_ge_cases x (pos + l)) as [C|C]; [exists idx, pos, l; split; [now left|lia]|].
  destruct (IH _ _ _ x H') as (i' & s' & l' & Hin & Hx'); [lia|]. exists i', s', l'. split; [now right|exact Hx'].
Qed.

Lemma Forall2_weaken : forall {A B} (P Q : A -> B -> Prop) l l', (forall x y, P x y -> Q x y) -> Forall2 P l l' -> Forall2 Q l l'.
Proof. intros A B P Q l l' H HF. induction HF; constructor; auto. Qed.

Section Search.
  Context {F C : Type}.
  Variables (observe : C -> F -> option C) (sample : C -> option (F * C)) (to_u32 : F -> Z) (of_u32 : Z -> F) (succ : F -> F).
  Variables (bits : Z) (c : C) (from to : Z).
  Hypothesis total : forall w, exists b c', check_witness observe sample to_u32 bits c w = Some (b, c').
  Hypothesis succ_ok : forall i, from <= i -> i + 1 < to -> of_u32 (i + 1) = succ (of_u32 i).

  Definition good (i : Z) : Prop := exists c', check_witness observe sample to_u32 bits c (of_u32 i) = Some (true, c').
  Definition none_good (a b : Z) : Prop := forall i, a <= i < b -> ~ good i.

  Definition inv1 (found : bool) (ab : Z * Z) (w : worker) : Prop :=
    let (a, b) := ab in
    match w with
    | AtLoad i f last => last = b /\ a <= i <= b /\ (i < b -> f = of_u32 i) /\ none_good a i
    | AtCheck i f last => last = b /\ a <= i < b /\ f = of_u32 i /\ none_good a i
    | AtStore i => a <= i < b /\ good i
    | Done (Some i) => a <= i < b /\ good i
    | Done None => found = true \/ none_good a b
    | Crash => False
    end.
  Definition inv (ranges : list (Z * Z)) (s : bool * list (@worker F)) : Prop :=
    Forall2 (inv1 (fst s)) ranges (snd s) /\ (fst s = true -> exists i, In (Done (Some i)) (snd s)).

  Lemma inv1_found : forall found found' ab w, (found = true -> found' = true) -> inv1 found ab w -> inv1 found' ab w.
  Proof. intros found found' [a b] w H. destruct w as [| | |[i|]|]; cbn; auto. intros [E|E]; auto. Qed.

  Lemma worker_inv : forall found found' w w' ab, from <= fst ab -> snd ab <= to -> inv1 found ab w ->
    worker_step observe sample to_u32 succ bits c found w = Some (found', w') ->
    inv1 found' ab w' /\ (found = true -> found' = true) /\ (found' = true -> found = true \/ exists i, w' = Done (Some i)) /\ (forall i, w <> Done (Some i)).
  Proof.
    intros found found' w w' [a b] Ha Hb H E. cbn [fst snd] in *. destruct w as [i f last|i f last|i|r|]; cbn [worker_step] in E; try discriminate; injection E as <- <-; cbn [inv1] in H.
    - split; [|repeat split; auto; discriminate]. destruct H as (-> & Hi & Hf & Hn). destruct (Z.ltb_spec i b) as [L|L].
      + destruct found; cbn [inv1]; [now left|]. repeat split; try lia; auto.
      + cbn [inv1]. right. replace b with i by lia. exact Hn.
    - split; [|repeat split; auto; discriminate]. destruct H as (-> & Hi & -> & Hn).
      destruct (total (of_u32 i)) as (r & c' & Ec). rewrite Ec. destruct r; cbn [inv1].
      + split; [exact Hi|]. exists c'. exact Ec.
      + split; [reflexivity|]. split; [lia|]. split; [intros L; rewrite succ_ok by lia; reflexivity|]. intros j Hj (c2 & E2). destruct (Z.eq_dec j i) as [->|]; [congruence|]. apply (Hn j); [lia|]. now exists c2.
    - cbn [inv1]. split; [exact H|]. split; [auto|]. split; [right; now exists i|discriminate].
  Qed.

  Lemma step_inv : forall ranges s s', Forall (fun ab => from <= fst ab /\ snd ab <= to) ranges -> inv ranges s -> grind_step observe sample to_u32 succ bits c s s' -> inv ranges s'.
  Proof.
    intros ranges s s' HR [H1 H2] St. inversion St as [found found' ws1 w w' ws2 E]; subst. cbn [fst snd] in *.
    apply Forall2_app_inv_r in H1. destruct H1 as (r1 & r2' & F1 & F2 & ->). inversion F2 as [|ab ? r2 ? Hab F3]; subst.
    apply Forall_app in HR. destruct HR as [_ HR]. apply Forall_cons_iff in HR. destruct HR as [[Ha Hb] _].
    destruct (worker_inv found found' w w' ab Ha Hb Hab E) as (I & M & N & D).
    split; cbn [fst snd].
    - apply Forall2_app; [|constructor; [exact I|]].
      + apply (Forall2_weaken (inv1 found)); [intros x y; now apply inv1_found|exact F1].
      + apply (Forall2_weaken (inv1 found)); [intros x y; now apply inv1_found|exact F3].
    - intros Hf. destruct (N Hf) as [Hf0|(i & ->)].
      + destruct (H2 Hf0) as (i & Hi). apply in_app_or in Hi. exists i. apply in_or_app. destruct Hi as [Hi|[Hi|Hi]]; [now left| |right; now right]. exfalso. exact (D i Hi).
      + exists i. apply in_or_app. right. now left.
  Qed.
  Lemma steps_inv : forall ranges n s s', Forall (fun ab => from <= fst ab /\ snd ab <= to) ranges -> inv ranges s -> grind_steps observe sample to_u32 succ bits c n s s' -> inv ranges s'.
  Proof. intros ranges n s s' HR H St. induction St; auto. apply IHSt. now apply (step_inv ranges s). Qed.

  (** Termination. *)
  Definition cost (w : @worker F) : Z := match w with AtLoad i _ last => 2 * (last - i) + 3 | AtCheck i _ last => 2 * (last - i) + 2 | AtStore _ => 1 | Done _ => 0 | Crash => 0 end.
  Definition total_cost (ws : list (@worker F)) : Z := fold_right (fun w a => cost w + a) 0 ws.
  Lemma total_cost_app : forall a b, total_cost (a ++ b) = total_cost a + total_cost b.
  Proof. induction a as [|w a IH]; intros b; cbn [app total_cost fold_right]; [reflexivity|]. fold (total_cost (a ++ b)) (total_cost a). rewrite IH. lia. Qed.
  Lemma cost_nonneg : forall found ab w, inv1 found ab w -> 0 <= cost w.
  Proof. intros found [a b] w H. destruct w as [i f last|i f last|i|r|]; cbn [cost inv1] in *; lia. Qed.
  Lemma total_cost_nonneg : forall found rs ws, Forall2 (inv1 found) rs ws -> 0 <= total_cost ws.
  Proof. intros found rs ws H. induction H as [|ab w rs ws H1 H IH]; cbn [total_cost fold_right]; [lia|]. fold (total_cost ws). pose proof (cost_nonneg _ _ _ H1). lia. Qed.
  Lemma step_cost : forall ranges s s', inv ranges s -> grind_step observe sample to_u32 succ bits c s s' -> total_cost (snd s') < total_cost (snd s).
  Proof.
    intros ranges s s' [H1 _] St. inversion St as [found found' ws1 w w' ws2 E]; subst. cbn [fst snd] in *.
    apply Forall2_app_inv_r in H1. destruct H1 as (r1 & r2' & F1 & F2 & ->). inversion F2 as [|ab ? r2 ? Hab F3]; subst.
    rewrite !total_cost_app. cbn [total_cost fold_right]. fold (total_cost ws2). assert (cost w' < cost w); [|lia].
    destruct ab as [a b]. destruct w as [i f last|i f last|i|r|]; cbn [worker_step] in E; try discriminate; injection E as <- <-; cbn [inv1] in Hab.
    - destruct Hab as (-> & ? & _). destruct (i <? b); [destruct found|]; cbn [cost]; lia.
    - destruct Hab as (-> & ? & _). destruct (check_witness _ _ _ _ _ _) as [[[] ?]|]; cbn [cost]; lia.
    - cbn. lia.
  Qed.
  Lemma steps_cost : forall ranges n s s', Forall (fun ab => from <= fst ab /\ snd ab <= to) ranges -> inv ranges s -> grind_steps observe sample to_u32 succ bits c n s s' -> Z.of_nat n + total_cost (snd s') <= total_cost (snd s).
  Proof.
    intros ranges n s s' HR H St. induction St as [s|n s s' s'' S1 S2 IH]; [lia|]. pose proof (step_cost _ _ _ H S1). pose proof (IH (step_inv _ _ _ HR H S1)). lia.
  Qed.
  (** A state with a worker that has not returned can make a step. *)
  Definition returned (ws : list (@worker F)) : option (list (option Z)) :=
    fold_right (fun w acc => match w, acc with Done r, Some rs => Some (r :: rs) | _, _ => None end) (Some []) ws.
  Lemma progress : forall ranges s, inv ranges s -> (exists rs, returned (snd s) = Some rs) \/ exists s', grind_step observe sample to_u32 succ bits c s s'.
  Proof.
    intros ranges [found ws] [H _]. cbn [fst snd] in *. induction H as [|ab w rs ws Hab H IH]; [left; exists []; reflexivity|].
    destruct w as [i f last|i f last|i|r|].
    1-3: right; match goal with |- exists s', grind_step ?o ?sm ?t ?sc ?bi ?cc (?fd, ?w :: ?wss) s' => destruct (worker_step o sm t sc bi cc fd w) as [[f' w']|] eqn:E; [|discriminate E]; exists (f', [] ++ w' :: wss); exact (grind_step_worker o sm t sc bi cc fd f' [] w w' wss E) end.
    - destruct IH as [(rs' & E)|(s' & St)]; [left; exists (r :: rs'); cbn [returned fold_right]; fold (returned ws); now rewrite E|].
      right. inversion St as [f0 found' ws1 w w' ws2 E]; subst. exists (found', (Done r :: ws1) ++ w' :: ws2). now apply (grind_step_worker observe sample to_u32 succ bits c found found' (Done r :: ws1) w w' ws2).
    - destruct ab. destruct Hab.
  Qed.
  Lemma returned_in : forall ws rs, returned ws = Some rs -> ws = map Done rs.
  Proof.
    induction ws as [|w ws IH]; intros rs H; cbn [returned fold_right] in H; [injection H as <-; reflexivity|]. fold (returned ws) in H.
    destruct w as [| | |r|]; try discriminate. destruct (returned ws) as [rs'|]; [|discriminate]. injection H as <-. cbn. f_equal. auto.
  Qed.

  Lemma first_found_some : forall rs, (exists i, first_found rs = Some i /\ In (Some i) rs) \/ (first_found rs = None /\ forall i, ~ In (Some i) rs).
  Proof.
    induction rs as [|[i|] rs IH]; [right; split; [reflexivity|intros i []]|left; exists i; split; [reflexivity|now left]|].
    destruct IH as [(i & E & Hi)|[E Hn]]; [left; exists i; split; [exact E|now right]|right; split; [exact E|]]. intros i [H|H]; [discriminate|now apply (Hn i)].
  Qed.

  (** Every finished execution. *)
  Lemma finished : forall ranges found ws rs, inv ranges (found, ws) -> returned ws = Some rs ->
    (forall i, In (Some i) rs -> good i /\ exists ab, In ab ranges /\ fst ab <= i < snd ab) /\
    ((forall i, ~ In (Some i) rs) -> forall ab, In ab ranges -> none_good (fst ab) (snd ab)).
  Proof.
    intros ranges found ws rs [H1 H2] E. cbn [fst snd] in *. apply returned_in in E. subst ws. split.
    - intros i Hi. revert Hi. clear H2. remember (map Done rs) as ws eqn:Ew. revert rs Ew. induction H1 as [|[a b] w ranges ws Hab H IH]; intros rs Ew Hi.
      + destruct rs; [destruct Hi|discriminate].
      + destruct rs as [|r rs]; [discriminate|]. cbn in Ew. injection Ew as -> ->. destruct Hi as [->|Hi].
        * cbn in Hab. destruct Hab as [Hr Hg]. split; [exact Hg|]. exists (a, b). split; [now left|exact Hr].
        * destruct (IH rs eq_refl Hi) as (Hg & ab & Hin & Hr). split; [exact Hg|]. exists ab. split; [now right|exact Hr].
    - intros Hn. assert (Ef : found = true -> False).
      { intros Ht. destruct (H2 Ht) as (i & Hi). apply in_map_iff in Hi. destruct Hi as (r & Er & Hr). injection Er as ->. exact (Hn i Hr). }
      clear H2. remember (map Done rs) as ws eqn:Ew. revert rs Ew Hn. induction H1 as [|[a b] w ranges ws Hab H IH]; intros rs Ew Hn ab Hin; [destruct Hin|].
      destruct rs as [|r rs]; [discriminate|]. cbn in Ew. injection Ew as -> ->. destruct Hin as [<-|Hin].
      + destruct r as [i|]; [exfalso; apply (Hn i); now left|]. cbn in Hab. destruct Hab as [Hab|Hab]; [now elim Ef|exact Hab].
      + apply (IH rs eq_refl); [intros i Hi; apply (Hn i); now right|exact Hin].
  Qed.

  (** ** The workers that Grind starts. *)
  Variable threads : Z.
  Hypothesis threads_pos : 0 < threads.
  Hypothesis threads_small : threads < 2 ^ 32.
  Hypothesis range_ok : 0 <= from <= to.
  Hypothesis to_small : to < 2 ^ 32.

  Notation size := (to - from).
  Notation chunk := (size_per_thread threads size None).
  Notation calls := (chunk_calls size chunk).
  Definition ranges_of : list (Z * Z) := map (fun t => match t with (_, s, l) => (from + s, from + s + l) end) calls.

  Lemma chunk_cases : (size = 0 /\ chunk = 0) \/ (0 < size /\ 0 < chunk <= size).
  Proof. apply (container_chunk threads size None threads_pos); lia. Qed.

  Lemma calls_ok : tiles 0 0 calls size /\ Z.of_nat (length calls) <= threads /\
    Forall (fun t => match t with (i, start, len) => start = i * chunk /\ len = Z.min (size - start) chunk /\ 0 <= start /\ start + len <= size /\ 0 < len end) calls.
  Proof.
    destruct (container_partition threads size None threads_pos ltac:(lia) ltac:(lia)) as [T L]. change (num_elements_per_thread threads size None) with chunk in *. split; [exact T|]. split; [exact L|].
    destruct chunk_cases as [[E1 E2]|[E1 E2]]; [rewrite E2; cbn; constructor|].
    pose proof (chunk_calls_shape size chunk ltac:(lia) ltac:(lia) ltac:(lia)) as Sh. pose proof (tiles_min chunk calls 0 0 size T Sh) as Mn.
    rewrite Forall_forall in *. intros [[i s] l] Hin. pose proof (Sh _ Hin) as A. pose proof (Mn _ Hin) as B. cbv beta iota in A, B. lia.
  Qed.

  Lemma trunc32_small : forall x, 0 <= x < 2 ^ 32 -> trunc 32 x = x.
  Proof. intros x H. unfold trunc. apply Z.mod_small. lia. Qed.

  Lemma init_eq : grind_init of_u32 threads from to = map (fun ab => AtLoad (fst ab) (of_u32 (fst ab)) (snd ab)) ranges_of.
  Proof.
    unfold grind_init, ranges_of. rewrite map_map. replace (if from <? to then to - from else 0) with size by (destruct (Z.ltb_spec from to); lia).
    apply map_ext_in. intros [[i s] l] Hin. destruct calls_ok as (_ & _ & HF). rewrite Forall_forall in HF. specialize (HF _ Hin). cbv beta iota in HF. destruct HF as (H1 & H2 & H3 & H4 & H5).
    destruct chunk_cases as [[E1 E2]|[E1 E2]]; [lia|]. cbn [fst snd].
    assert (0 <= i < 2 ^ 32) by nia.
    rewrite (trunc32_small i), (trunc32_small chunk) by lia. rewrite <- H1. rewrite (trunc32_small s) by lia. rewrite (trunc32_small (from + s)) by lia. rewrite (trunc32_small (to - (from + s))) by lia.
    rewrite trunc32_small by lia. f_equal. lia.
  Qed.

  Lemma ranges_ok : Forall (fun ab => from <= fst ab /\ snd ab <= to /\ fst ab < snd ab) ranges_of.
  Proof.
    unfold ranges_of. apply Forall_map. destruct calls_ok as (_ & _ & HF). eapply Forall_impl; [|exact HF]. intros [[i s] l]. cbn [fst snd]. lia.
  Qed.
  Lemma init_inv : inv ranges_of (false, grind_init of_u32 threads from to).
  Proof.
    split; [|discriminate]. cbn [fst snd]. rewrite init_eq. pose proof ranges_ok as HR. induction HR as [|[a b] r H HR IH]; [constructor|]. cbn [map]. constructor; [|exact IH]. cbn in H |- *.
    repeat split; try lia; auto. intros j Hj. lia.
  Qed.
  Lemma init_cost : total_cost (grind_init of_u32 threads from to) <= 2 * size + 3 * threads.
  Proof.
    rewrite init_eq. unfold ranges_of. destruct calls_ok as (T & L & _). 
    assert (G : forall cs idx pos stop, tiles idx pos cs stop -> total_cost (map (fun ab => AtLoad (fst ab) (of_u32 (fst ab)) (snd ab)) (map (fun t => match t with (_, s, l) => (from + s, from + s + l) end) cs)) = 2 * (stop - pos) + 3 * Z.of_nat (length cs)).
    { clear. induction cs as [|[[i s] l] cs IH]; intros idx pos stop H; cbn [tiles] in H; [cbn [map total_cost fold_right length]; lia|]. destruct H as (-> & -> & H & H'). cbn [map total_cost fold_right cost fst snd length]. 
      specialize (IH _ _ _ H'). unfold total_cost in IH. rewrite IH. lia. }
    rewrite (G _ _ _ _ T). lia.
  Qed.

  Lemma grind_all : forall n found ws, grind_steps observe sample to_u32 succ bits c n (false, grind_init of_u32 threads from to) (found, ws) ->
    Z.of_nat n <= 2 * size + 3 * threads /\
    ((exists rs, returned ws = Some rs) \/ exists s', grind_step observe sample to_u32 succ bits c (found, ws) s') /\
    forall rs, returned ws = Some rs ->
      (forall w c', grind_result observe sample to_u32 of_u32 bits c rs = Some (w, c') ->
         (exists i, from <= i < to /\ w = of_u32 i) /\ check_witness observe sample to_u32 bits c w = Some (true, c')) /\
      (grind_result observe sample to_u32 of_u32 bits c rs = None -> forall i, from <= i < to -> ~ good i).
  Proof.
    intros n found ws St. pose proof init_inv as I0.
    assert (HR : Forall (fun ab => from <= fst ab /\ snd ab <= to) ranges_of) by (eapply Forall_impl; [|exact ranges_ok]; intros ab; cbn; lia).
    pose proof (steps_inv _ _ _ _ HR I0 St) as I. split; [|split].
    - pose proof (steps_cost _ _ _ _ HR I0 St) as Co. cbn [snd] in Co. pose proof init_cost. destruct I as [I _]. cbn [fst snd] in I. pose proof (total_cost_nonneg _ _ _ I). lia.
    - exact (progress _ _ I).
    - intros rs Er. destruct (finished _ _ _ _ I Er) as [Fs Fn]. unfold grind_result. destruct (first_found_some rs) as [(i & Ei & Hi)|[Ei Hn]]; rewrite Ei.
      + destruct (Fs i Hi) as [(c' & Hg) (ab & Hin & Hr)]. rewrite Forall_forall in HR. specialize (HR _ Hin). split.
        * intros w c2 H. rewrite Hg in H. injection H as <- <-. split; [exists i; split; [lia|reflexivity]|exact Hg].
        * rewrite Hg. discriminate.
      + split; [discriminate|]. intros _ i Hi. destruct calls_ok as (T & _ & _). destruct (tiles_cover _ _ _ _ (i - from) T) as (j & s & l & Hin & Hx); [lia|].
        apply (Fn Hn (from + s, from + s + l)); [|cbn; lia]. unfold ranges_of. apply in_map_iff. exists (j, s, l). auto.
  Qed.
End Search.

Lemma returned_done : forall {F : Type} (rs : list (option Z)), returned (map (@Done F) rs) = Some rs.
Proof. induction rs as [|r rs IH]; [reflexivity|]. cbn [map returned fold_right]. fold (returned (map (@Done F) rs)). now rewrite IH. Qed.

Lemma grind_every_schedule : forall {F C : Type} (observe : C -> F -> option C) (sample : C -> option (F * C)) (to_u32 : F -> Z) (of_u32 : Z -> F) (succ : F -> F) (bits : Z) (c : C) (from to threads : Z),
  (forall w, exists b c', check_witness observe sample to_u32 bits c w = Some (b, c')) ->
  (forall i, from <= i -> i + 1 < to -> of_u32 (i + 1) = succ (of_u32 i)) ->
  0 < threads < 2 ^ 32 -> 0 <= from <= to -> to < 2 ^ 32 ->
  forall n found ws, grind_steps observe sample to_u32 succ bits c n (false, grind_init of_u32 threads from to) (found, ws) ->
  Z.of_nat n <= 2 * (to - from) + 3 * threads /\
  ((exists rs, ws = map Done rs) \/ exists s', grind_step observe sample to_u32 succ bits c (found, ws) s') /\
  forall rs, ws = map Done rs ->
    match grind_result observe sample to_u32 of_u32 bits c rs with
    | Some (w, c') => (exists i, from <= i < to /\ w = of_u32 i) /\ check_witness observe sample to_u32 bits c w = Some (true, c')
    | None => forall i, from <= i < to -> exists c', check_witness observe sample to_u32 bits c (of_u32 i) = Some (false, c')
    end.
Proof.
  intros F C observe sample to_u32 of_u32 succ bits c from to threads Ht Hs H1 H2 H3 n found ws St.
  destruct (grind_all observe sample to_u32 of_u32 succ bits c from to Ht Hs threads ltac:(lia) ltac:(lia) H2 H3 n found ws St) as (A & B & D). split; [exact A|]. split.
  - destruct B as [(rs & E)|B]; [left; exists rs; now apply returned_in|now right].
  - intros rs ->. specialize (D rs (returned_done rs)). destruct D as [D1 D2]. destruct (grind_result _ _ _ _ _ _ rs) as [[w c']|]; [now apply D1|].
    intros i Hi. destruct (Ht (of_u32 i)) as (b & c' & E). destruct b; [|now exists c']. exfalso. apply (D2 eq_refl i Hi). now exists c'.
Qed.

(** An executable scheduler: the worker to run next, at each step. *)
Fixpoint run_schedule {F C : Type} (observe : C -> F -> option C) (sample : C -> option (F * C)) (to_u32 : F -> Z) (succ : F -> F) (bits : Z) (c : C)
  (sched : list nat) (s : bool * list (@worker F)) : option (bool * list (@worker F)) :=
  match sched with
  | [] => Some s
  | j :: r => match nth_error (snd s) j with
              | Some w => match worker_step observe sample to_u32 succ bits c (fst s) w with
                          | Some (f', w') => run_schedule observe sample to_u32 succ bits c r (f', firstn j (snd s) ++ w' :: skipn (S j) (snd s))
                          | None => None
                          end
              | None => None
              end
  end.
Lemma run_schedule_sound : forall {F C : Type} (observe : C -> F -> option C) (sample : C -> option (F * C)) to_u32 succ bits c sched s s',
  run_schedule observe sample to_u32 succ bits c sched s = Some s' -> grind_steps observe sample to_u32 succ bits c (length sched) s s'.
Proof.
  intros F C observe sample to_u32 succ bits c. induction sched as [|j r IH]; intros s s' H; cbn [run_schedule length] in *; [injection H as <-; constructor|].
  destruct (nth_error (snd s) j) as [w|] eqn:En; [|discriminate]. destruct (worker_step _ _ _ _ _ _ _ w) as [[f' w']|] eqn:Ew; [|discriminate].
  eapply grind_more; [|exact (IH _ _ H)]. destruct s as [found ws]. cbn [fst snd] in *.
  assert (E : ws = firstn j ws ++ w :: skipn (S j) ws).
  { clear - En. revert j En. induction ws as [|a ws IH]; intros [|j] E; cbn in E; try discriminate; [injection E as ->; reflexivity|]. cbn [firstn skipn app]. f_equal. now apply IH. }
  rewrite E at 1. now constructor.
Qed.
