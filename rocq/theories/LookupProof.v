(** PermuteExpressionPair: the multiset of table values, the rows that start a run, and the rows filled with leftovers. *)
From Coq Require Import List Arith Bool Lia Permutation Sorted.
From Verif Require Import CycleModel CycleExtra LookupModel.
Import ListNotations.
Open Scope nat_scope.

Lemma nth_error_firstn' : forall {A} (i u : nat) (s : list A), i < u -> nth_error (firstn u s) i = nth_error s i.
Proof. induction i as [|i IH]; intros [|u] [|x s] H; try lia; cbn; auto. apply IH. lia. Qed.

Section Lookup.
  Variable F : Type.
  Variable eqb ltb : F -> F -> bool.
  Hypothesis eqb_spec : forall x y, reflect (x = y) (eqb x y).
  Hypothesis lt_irr : forall x, ltb x x = false.
  Hypothesis lt_trans : forall x y z, ltb x y = true -> ltb y z = true -> ltb x z = true.
  Hypothesis lt_total : forall x y, ltb x y = false -> ltb y x = false -> x = y.

  Let dec (x y : F) : {x = y} + {x <> y} := match eqb_spec x y with ReflectT _ E => left E | ReflectF _ N => right N end.
  Notation cnt l y := (count_occ dec l y).

  Definition keys (m : list (F * nat)) : list F := map fst m.
  Definition leftover (m : list (F * nat)) : list F := concat (map (fun p => repeat (fst p) (snd p)) m).
  Notation slt := (fun x y => ltb x y = true).

  Lemma cnt_repeat : forall x c y, cnt (repeat x c) y = if dec x y then c else 0.
  Proof. intros x c y. induction c as [|c IH]; cbn [repeat count_occ]; [now destruct (dec x y)|]. rewrite IH. now destruct (dec x y). Qed.
  Lemma cnt_leftover_cons : forall x c m y, cnt (leftover ((x, c) :: m)) y = (if dec x y then c else 0) + cnt (leftover m) y.
  Proof. intros. unfold leftover. cbn [map concat fst snd]. rewrite count_occ_app, cnt_repeat. reflexivity. Qed.
  Lemma cnt_not_key : forall m y, ~ In y (keys m) -> cnt (leftover m) y = 0.
  Proof.
    induction m as [|[x c] m IH]; intros y H; [reflexivity|]. rewrite cnt_leftover_cons. destruct (dec x y) as [->|N]; [exfalso; apply H; now left|].
    apply IH. intros Hin. apply H. now right.
  Qed.

  Lemma bump_ok : forall m x, StronglySorted slt (keys m) ->
    StronglySorted slt (keys (bump F eqb ltb m x)) /\ (forall y, In y (keys (bump F eqb ltb m x)) <-> y = x \/ In y (keys m)) /\
    forall y, cnt (leftover (bump F eqb ltb m x)) y = (if dec x y then 1 else 0) + cnt (leftover m) y.
  Proof.
    induction m as [|[z c] m IH]; intros x Sm.
    - cbn [bump keys map]. split; [repeat constructor|]. split; [intros y; cbn; intuition congruence|]. intros y. rewrite cnt_leftover_cons. reflexivity.
    - cbn [bump]. cbn [keys map fst] in Sm. apply StronglySorted_inv in Sm. destruct Sm as [Sm Hz].
      destruct (eqb_spec x z) as [->|Nxz]; [|destruct (ltb x z) eqn:L].
      + split; [now constructor|]. split; [intros y; cbn; intuition congruence|]. intros y. rewrite !cnt_leftover_cons. destruct (dec z y); lia.
      + split.
        * cbn [keys map fst]. constructor; [now constructor|]. constructor; [exact L|]. eapply Forall_impl; [|exact Hz]. intros w Hw. now apply (lt_trans x z w).
        * split; [intros y; cbn; intuition congruence|]. intros y. rewrite (cnt_leftover_cons x). reflexivity.
      + destruct (IH x Sm) as (S1 & K1 & C1). split.
        * cbn [keys map fst]. constructor; [exact S1|]. apply Forall_forall. intros w Hw. apply K1 in Hw. destruct Hw as [->|Hw].
          -- destruct (ltb z x) eqn:L2; [reflexivity|]. exfalso. apply Nxz. now apply lt_total.
          -- rewrite Forall_forall in Hz. now apply Hz.
        * split; [intros y; cbn [keys map fst In]; rewrite K1; intuition congruence|]. intros y. rewrite !cnt_leftover_cons, C1. lia.
  Qed.
  Lemma bumps_ok : forall t m, StronglySorted slt (keys m) ->
    let m' := fold_left (bump F eqb ltb) t m in
    StronglySorted slt (keys m') /\ (forall y, In y (keys m') <-> In y t \/ In y (keys m)) /\ forall y, cnt (leftover m') y = cnt t y + cnt (leftover m) y.
  Proof.
    induction t as [|x t IH]; intros m Sm; cbn [fold_left]; [split; [exact Sm|split; [intros y; cbn; tauto|reflexivity]]|].
    destruct (bump_ok m x Sm) as (S1 & K1 & C1). destruct (IH _ S1) as (S2 & K2 & C2). split; [exact S2|]. split.
    - intros y. rewrite K2, K1. cbn [In]. intuition congruence.
    - intros y. rewrite C2, C1. cbn [count_occ]. destruct (dec x y); lia.
  Qed.
  Lemma sorted_nodup : forall l, StronglySorted slt l -> NoDup l.
  Proof.
    induction l as [|x l IH]; intros H; [constructor|]. apply StronglySorted_inv in H. destruct H as [H Hx]. constructor; [|now apply IH].
    intros Hin. rewrite Forall_forall in Hx. specialize (Hx x Hin). rewrite lt_irr in Hx. discriminate.
  Qed.

  Lemma take_absent : forall m x, ~ In x (keys m) -> take F eqb m x = Some None.
  Proof.
    induction m as [|[z c] m IH]; intros x H; [reflexivity|]. cbn [take]. destruct (eqb_spec x z) as [->|N]; [exfalso; apply H; now left|].
    rewrite IH; [reflexivity|]. intros Hin. apply H. now right.
  Qed.
  Lemma take_present : forall m x, NoDup (keys m) -> 0 < cnt (leftover m) x ->
    exists m', take F eqb m x = Some (Some m') /\ keys m' = keys m /\ forall y, cnt (leftover m) y = (if dec x y then 1 else 0) + cnt (leftover m') y.
  Proof.
    induction m as [|[z c] m IH]; intros x ND H; [cbn in H; lia|]. cbn [take]. cbn [keys map fst] in ND. apply NoDup_cons_iff in ND. destruct ND as [Nz ND].
    rewrite cnt_leftover_cons in H. destruct (eqb_spec x z) as [->|N].
    - rewrite (cnt_not_key m z Nz) in H. destruct (dec z z) as [_|]; [|congruence]. destruct c as [|c]; [lia|]. exists ((z, c) :: m). split; [reflexivity|]. split; [reflexivity|].
      intros y. rewrite !cnt_leftover_cons. destruct (dec z y); lia.
    - destruct (dec z x) as [E|_]; [congruence|]. destruct (IH x ND H) as (m' & E & Km & C). rewrite E. exists ((z, c) :: m'). split; [reflexivity|]. split; [cbn [keys map fst]; unfold keys in Km; now rewrite Km|].
      intros y. rewrite !cnt_leftover_cons, C. lia.
  Qed.

  (** The rows that start a run of like values, with the value; and the others. *)
  Definition starts (prev : option F) (x : F) : bool := match prev with None => true | Some y => negb (eqb x y) end.
  Fixpoint firsts (prev : option F) (row : nat) (a : list F) : list (nat * F) :=
    match a with [] => [] | x :: a' => if starts prev x then (row, x) :: firsts (Some x) (S row) a' else firsts (Some x) (S row) a' end.
  Fixpoint others (prev : option F) (row : nat) (a : list F) : list nat :=
    match a with [] => [] | x :: a' => if starts prev x then others (Some x) (S row) a' else row :: others (Some x) (S row) a' end.

  Lemma rows_perm : forall a prev row, Permutation (map fst (firsts prev row a) ++ others prev row a) (seq row (length a)).
  Proof.
    induction a as [|x a IH]; intros prev row; [constructor|]. cbn [firsts others length seq]. destruct (starts prev x); cbn [map fst app].
    - constructor. apply IH.
    - symmetry. apply Permutation_cons_app. symmetry. apply IH.
  Qed.
  Lemma rows_range : forall a prev row i, In i (map fst (firsts prev row a) ++ others prev row a) -> row <= i < row + length a.
  Proof. intros a prev row i H. apply in_seq. eapply Permutation_in; [apply rows_perm|exact H]. Qed.
  Lemma rows_nodup : forall a prev row, NoDup (map fst (firsts prev row a) ++ others prev row a).
  Proof. intros a prev row. eapply Permutation_NoDup; [symmetry; apply rows_perm|apply seq_NoDup]. Qed.

  Lemma firsts_value : forall a prev row i x, In (i, x) (firsts prev row a) -> row <= i /\ nth_error a (i - row) = Some x.
  Proof.
    induction a as [|z a IH]; intros prev row i x H; [destruct H|]. cbn [firsts] in H.
    assert (K : In (i, x) (firsts (Some z) (S row) a) -> row <= i /\ nth_error (z :: a) (i - row) = Some x).
    { intros Hin. apply IH in Hin. destruct Hin as [L E]. split; [lia|]. replace (i - row) with (S (i - S row)) by lia. exact E. }
    destruct (starts prev z); [|auto]. destruct H as [H|H]; [|auto]. injection H as <- <-. split; [lia|]. now rewrite Nat.sub_diag.
  Qed.
  Lemma others_value : forall a prev row i, In i (others prev row a) ->
    row <= i /\ (i = row /\ prev = nth_error a 0 \/ row < i /\ nth_error a (i - row) = nth_error a (i - row - 1)).
  Proof.
    induction a as [|z a IH]; intros prev row i H; [destruct H|]. cbn [others] in H.
    assert (K : In i (others (Some z) (S row) a) -> row <= i /\ (i = row /\ prev = nth_error (z :: a) 0 \/ row < i /\ nth_error (z :: a) (i - row) = nth_error (z :: a) (i - row - 1))).
    { intros Hin. apply IH in Hin. destruct Hin as [L [[-> E]|[L2 E]]]; (split; [lia|]); right; (split; [lia|]).
      - replace (S row - row) with 1 by lia. cbn. now symmetry.
      - replace (i - row) with (S (i - S row)) by lia. cbn [nth_error]. rewrite E. replace (S (i - S row) - 1) with (S (i - S row - 1)) by lia. reflexivity. }
    destruct (starts prev z) eqn:E; [auto|]. destruct H as [<-|H]; [|auto]. split; [lia|]. left. split; [reflexivity|]. cbn. unfold starts in E. destruct prev as [y|]; [|discriminate].
    destruct (eqb_spec z y); [now subst|discriminate].
  Qed.

  Lemma scan_ok : forall a prev row m s rep, NoDup (keys m) -> row + length a <= length s ->
    (forall y, In y (keys m) -> cnt (map snd (firsts prev row a)) y <= cnt (leftover m) y) ->
    ((exists y, In y (map snd (firsts prev row a)) /\ ~ In y (keys m)) /\ scan F eqb prev row a m s rep = Some None) \/
    ((forall y, In y (map snd (firsts prev row a)) -> In y (keys m)) /\ exists m' s', scan F eqb prev row a m s rep = Some (Some (m', s', rev (others prev row a) ++ rep)) /\
       (forall y, cnt (leftover m) y = cnt (map snd (firsts prev row a)) y + cnt (leftover m') y) /\
       length s' = length s /\
       (forall i x, In (i, x) (firsts prev row a) -> nth_error s' i = Some x) /\ (forall i, ~ In i (map fst (firsts prev row a)) -> nth_error s' i = nth_error s i)).
  Proof.
    induction a as [|x a IH]; intros prev row m s rep ND L Hc.
    - right. split; [intros y []|]. exists m, s. cbn. repeat split; auto. intros i x [].
    - cbn [length] in L. cbn [scan firsts others]. fold (starts prev x). cbn [firsts] in Hc. destruct (starts prev x) eqn:Es.
      + destruct (update_ok s row x) as (s1 & E1 & L1 & G1 & O1); [lia|]. rewrite E1. cbn [map snd fst] in *.
        destruct (in_dec dec x (keys m)) as [Kx|Nx].
        * assert (Px : 0 < cnt (leftover m) x) by (specialize (Hc x Kx); cbn [count_occ] in Hc; destruct (dec x x); [lia|congruence]).
          destruct (take_present m x ND Px) as (m1 & T1 & K1 & C1). rewrite T1.
          destruct (IH (Some x) (S row) m1 s1 rep) as [[(y & Hy & Ny) E]|[Hk (m' & s' & E & C & L' & G & O)]].
          -- now rewrite K1. -- lia. -- intros y Hy. rewrite K1 in Hy. specialize (Hc y Hy). rewrite C1 in Hc. cbn [count_occ] in Hc. destruct (dec x y); lia.
          -- left. split; [|exact E]. exists y. rewrite K1 in Ny. split; [now right|exact Ny].
          -- right. split; [intros y [<-|Hy]; [exact Kx|rewrite <- K1; now apply Hk]|]. exists m', s'. split; [exact E|]. split; [|split; [lia|split]].
             ++ intros y. rewrite C1, C. cbn [count_occ]. destruct (dec x y); lia.
             ++ intros i z [H|H]; [|now apply G]. injection H as <- <-. rewrite O; [exact G1|]. intros Hin. assert (S row <= row) by (apply (rows_range a (Some x) (S row) row), in_or_app; now left). lia.
             ++ intros i Hi. rewrite O by (intros Hin; apply Hi; now right). apply O1. intros ->. apply Hi. now left.
        * left. split; [exists x; split; [now left|exact Nx]|]. now rewrite take_absent.
      + destruct (IH (Some x) (S row) m s (row :: rep)) as [[Hy E]|[Hk (m' & s' & E & C & L' & G & O)]]; [exact ND|lia|exact Hc| |].
        * left. auto.
        * right. split; [exact Hk|]. exists m', s'. split; [rewrite E; cbn [rev]; now rewrite <- app_assoc|]. auto.
  Qed.

  (** Filling rows with leftovers. *)
  Fixpoint fill (l : list F) (s : list F) (rep : list nat) : option (list F * list nat) :=
    match l with
    | [] => Some (s, rep)
    | x :: l' => match rep with [] => None | row :: rep' => match update s row x with Some s' => fill l' s' rep' | None => None end end
    end.
  Lemma fill_app : forall l1 l2 s rep, fill (l1 ++ l2) s rep = match fill l1 s rep with Some (s', rep') => fill l2 s' rep' | None => None end.
  Proof. induction l1 as [|x l1 IH]; intros l2 s rep; [reflexivity|]. cbn [app fill]. destruct rep as [|row rep]; [reflexivity|]. destruct (update s row x); [apply IH|reflexivity]. Qed.
  Lemma place_fill : forall c x s rep, place F x c s rep = fill (repeat x c) s rep.
  Proof. induction c as [|c IH]; intros x s rep; [reflexivity|]. cbn [place repeat fill]. destruct rep; [reflexivity|]. destruct (update s n x); [apply IH|reflexivity]. Qed.
  Lemma place_all_fill : forall m s rep, place_all F m s rep = fill (leftover m) s rep.
  Proof.
    induction m as [|[x c] m IH]; intros s rep; [reflexivity|]. cbn [place_all]. unfold leftover. cbn [map concat fst snd]. rewrite fill_app, place_fill. destruct (fill (repeat x c) s rep) as [[s' rep']|]; [apply IH|reflexivity].
  Qed.
  Lemma fill_ok : forall l rep s, length l = length rep -> NoDup rep -> Forall (fun i => i < length s) rep ->
    exists s', fill l s rep = Some (s', []) /\ length s' = length s /\ map (nth_error s') rep = map Some l /\ forall i, ~ In i rep -> nth_error s' i = nth_error s i.
  Proof.
    induction l as [|x l IH]; intros rep s L ND HF; destruct rep as [|row rep]; try discriminate; [exists s; repeat split|].
    apply NoDup_cons_iff in ND. destruct ND as [Nr ND]. apply Forall_cons_iff in HF. destruct HF as [Hr HF]. cbn [fill].
    destruct (update_ok s row x Hr) as (s1 & E1 & L1 & G1 & O1). rewrite E1. destruct (IH rep s1) as (s' & E & L' & G & O); [cbn in L; lia|exact ND|now rewrite L1|].
    exists s'. split; [exact E|]. split; [lia|]. split; [cbn [map]; rewrite G, O by exact Nr; now rewrite G1|]. intros i Hi. rewrite O by (intros H; apply Hi; now right). apply O1. intros ->. apply Hi. now left.
  Qed.

  (** In a sorted list each value starts exactly one run. *)
  Notation sle := (fun x y => ltb y x = false).
  Lemma cnt_firsts_some : forall a p row, StronglySorted sle (p :: a) -> forall y, cnt (map snd (firsts (Some p) row a)) y = if dec p y then 0 else if in_dec dec y a then 1 else 0.
  Proof.
    induction a as [|x a IH]; intros p row HS y; [cbn; now destruct (dec p y)|].
    apply StronglySorted_inv in HS. destruct HS as [HS Hp]. cbn [firsts starts]. pose proof (StronglySorted_inv HS) as [_ Hx]. apply Forall_cons_iff in Hp. destruct Hp as [Hpx Hpa].
    destruct (eqb_spec x p) as [->|N]; cbn [negb].
    - rewrite (IH p (S row) HS y). destruct (dec p y) as [E|E]; [reflexivity|]. destruct (in_dec dec y a) as [I|I], (in_dec dec y (p :: a)) as [J|J]; try reflexivity; exfalso; [apply J; now right|]. destruct J; auto.
    - cbn [map snd count_occ]. rewrite (IH x (S row) HS y). destruct (dec x y) as [->|E].
      + destruct (dec p y) as [->|]; [congruence|]. destruct (in_dec dec y (y :: a)) as [|J]; [reflexivity|]. exfalso. apply J. now left.
      + destruct (dec p y) as [->|E2].
        * destruct (in_dec dec y a) as [I|]; [|reflexivity]. exfalso. rewrite Forall_forall in Hx. specialize (Hx y I). apply N. now apply lt_total.
        * destruct (in_dec dec y a) as [I|I], (in_dec dec y (x :: a)) as [J|J]; try reflexivity; exfalso; [apply J; now right|]. destruct J; auto.
  Qed.
  Lemma cnt_firsts : forall a row, StronglySorted sle a -> forall y, cnt (map snd (firsts None row a)) y = if in_dec dec y a then 1 else 0.
  Proof.
    intros [|x a] row HS y; [reflexivity|]. cbn [firsts starts map snd count_occ]. rewrite (cnt_firsts_some a x (S row) HS y). destruct (dec x y) as [->|E].
    - destruct (in_dec dec y (y :: a)) as [|J]; [reflexivity|]. exfalso. apply J. now left.
    - destruct (in_dec dec y a) as [I|I], (in_dec dec y (x :: a)) as [J|J]; try reflexivity; exfalso; [apply J; now right|]. destruct J; auto.
  Qed.
  Lemma in_firsts : forall a row y, StronglySorted sle a -> (In y (map snd (firsts None row a)) <-> In y a).
  Proof. intros a row y HS. rewrite (count_occ_In dec). rewrite (cnt_firsts a row HS y). destruct (in_dec dec y a); split; intros; try assumption; try contradiction; lia. Qed.

  Lemma list_by_nth : forall (s : list F) n, n <= length s -> map Some (firstn n s) = map (nth_error s) (seq 0 n).
  Proof.
    induction s as [|x s IH]; intros n H; [cbn in H; replace n with 0 by lia; reflexivity|]. destruct n as [|n]; [reflexivity|]. cbn [firstn map seq nth_error]. f_equal.
    rewrite IH by (cbn in H; lia). rewrite <- seq_shift, map_map. reflexivity.
  Qed.
  Lemma perm_some : forall (l l' : list F), Permutation (map Some l) (map Some l') -> Permutation l l'.
  Proof.
    intros l l' H. apply (Permutation_map (fun o : option F => match o with Some x => [x] | None => [] end)) in H. rewrite !map_map in H.
    assert (E : forall k : list F, concat (map (fun x => [x]) k) = k) by (induction k as [|x k IH]; cbn; [|rewrite IH]; reflexivity).
    rewrite <- (E l), <- (E l'). clear E. remember (map (fun x : F => [x]) l) as u. remember (map (fun x : F => [x]) l') as v. clear - H.
    induction H; cbn; auto; [now apply Permutation_app_head|rewrite !app_assoc; apply Permutation_app_tail, Permutation_app_comm|eapply perm_trans; eauto].
  Qed.

  (** ** The whole function *)
  Variable zero : F.
  Variable sort : list F -> list F.
  Hypothesis sort_perm : forall l, Permutation l (sort l).
  Hypothesis sort_sorted : forall l, StronglySorted sle (sort l).

  Theorem permute_pair_ok : forall n bf rnd input table, length input = n -> length table = n -> bf + 1 < n ->
    let u := n - (bf + 1) in
    ((exists x, In x (firstn u input) /\ ~ In x (firstn u table)) -> permute_expression_pair F eqb ltb zero sort n bf rnd input table = Some None) /\
    (incl (firstn u input) (firstn u table) -> exists a s,
       permute_expression_pair F eqb ltb zero sort n bf rnd input table = Some (Some (a ++ map rnd (seq 0 (bf + 1)), s ++ map rnd (seq (bf + 1) (bf + 1)))) /\
       Permutation (firstn u input) a /\ Permutation (firstn u table) s /\ StronglySorted sle a /\
       nth_error a 0 = nth_error s 0 /\
       forall i, i < u -> nth_error a i = nth_error s i \/ (0 < i /\ nth_error a i = nth_error a (i - 1))).
  Proof.
    intros n bf rnd input table Li Lt Hn u. unfold permute_expression_pair. fold u.
    assert (Hu : u <> 0) by (unfold u; lia). destruct (Nat.eqb_spec u 0) as [|_]; [contradiction|]. rewrite Li, Lt, Nat.eqb_refl. cbn [negb orb].
    set (a := sort (firstn u input)). assert (La : length a = u) by (unfold a; rewrite <- (Permutation_length (sort_perm _)), firstn_length; lia).
    assert (Ea : firstn u (a ++ skipn u input) = a) by (rewrite <- La at 1; rewrite firstn_app, Nat.sub_diag, firstn_all; cbn; apply app_nil_r). rewrite Ea.
    pose proof (sort_sorted (firstn u input)) as HS. fold a in HS. pose proof (sort_perm (firstn u input)) as HP. fold a in HP.
    set (t := firstn u table). assert (Ltt : length t = u) by (unfold t; rewrite firstn_length; lia).
    destruct (bumps_ok t []) as (Sm & Km & Cm); [constructor|]. set (m := fold_left (bump F eqb ltb) t []) in *.
    assert (Km' : forall y, In y (keys m) <-> In y t) by (intros y; rewrite Km; cbn; tauto).
    assert (Cm' : forall y, cnt (leftover m) y = cnt t y) by (intros y; rewrite Cm; cbn; lia).
    assert (Hc : forall y, In y (keys m) -> cnt (map snd (firsts None 0 a)) y <= cnt (leftover m) y).
    { intros y Hy. rewrite Cm', (cnt_firsts a 0 HS y). apply Km' in Hy. apply (count_occ_In dec) in Hy. destruct (in_dec dec y a); lia. }
    destruct (scan_ok a None 0 m (repeat zero n) [] (sorted_nodup _ Sm)) as [[(y & Hy & Ny) E]|[Hk (m' & s' & E & C & L' & G & O)]]; [rewrite repeat_length; lia|exact Hc| |].
    - rewrite E. split; [reflexivity|]. intros Hincl. exfalso. apply Ny, Km', Hincl. apply (Permutation_in _ (Permutation_sym HP)). now apply in_firsts in Hy.
    - split.
      { intros (x & Hx & Nx). exfalso. apply Nx, Km', Hk. apply in_firsts; [exact HS|]. apply (Permutation_in _ HP), Hx. }
      intros _. rewrite E, app_nil_r, place_all_fill. rewrite repeat_length in L'.
      assert (P1 : Permutation (map snd (firsts None 0 a) ++ leftover m') t).
      { apply (Permutation_count_occ dec). intros y. rewrite count_occ_app, <- C. now rewrite Cm'. }
      pose proof (rows_perm a None 0) as P2. pose proof (rows_nodup a None 0) as ND. pose proof (rows_range a None 0) as Rg. rewrite La in P2, Rg.
      assert (Ll : length (leftover m') = length (rev (others None 0 a))).
      { pose proof (Permutation_length P1) as E1. pose proof (Permutation_length P2) as E2. rewrite app_length in E1, E2. rewrite map_length in E1, E2. rewrite seq_length in E2. rewrite rev_length. lia. }
      assert (NDo : NoDup (rev (others None 0 a))) by (apply NoDup_rev; clear - ND; induction (map fst (firsts None 0 a)) as [|z l IH]; [exact ND|]; apply IH; now apply NoDup_cons_iff in ND).
      destruct (fill_ok (leftover m') (rev (others None 0 a)) s' Ll NDo) as (s & Es & Ls & Gs & Os).
      { apply Forall_forall. intros i Hi. apply in_rev in Hi. assert (0 <= i < 0 + u) by (apply Rg, in_or_app; now right). lia. }
      rewrite Es. assert (Gf : forall i x, In (i, x) (firsts None 0 a) -> nth_error s i = Some x).
      { intros i x Hi. rewrite Os; [now apply G|]. intros Hr. apply in_rev in Hr. clear - ND Hi Hr. apply (in_map fst) in Hi. cbn [fst] in Hi.
        induction (map fst (firsts None 0 a)) as [|z l IH]; [destruct Hi|]. cbn [app] in ND. apply NoDup_cons_iff in ND. destruct ND as [Nz ND]. destruct Hi as [<-|Hi]; [apply Nz, in_or_app; now right|now apply IH]. }
      exists a, (firstn u s). split; [|split; [exact HP|split; [|split; [exact HS|]]]].
      + unfold blind. rewrite app_length, La, skipn_length, Li, Ls, L'. replace (u + (n - u)) with n by (unfold u; lia). destruct (Nat.ltb_spec n (bf + 1)); [lia|].
        fold u. rewrite Ea. cbn [Nat.add]. reflexivity.
      + fold t. symmetry. eapply perm_trans; [|exact P1]. apply perm_some. rewrite list_by_nth by (rewrite Ls, L'; unfold u; lia).
        eapply perm_trans; [apply Permutation_map; symmetry; exact P2|]. rewrite !map_app, map_map. apply Permutation_app.
        * rewrite (map_map snd Some). replace (map (fun x : nat * F => nth_error s (fst x)) (firsts None 0 a)) with (map (fun x : nat * F => Some (snd x)) (firsts None 0 a)); [reflexivity|].
          apply map_ext_in. intros [i x] Hi. cbn [fst snd]. symmetry. now apply Gf.
        * rewrite <- Gs. apply Permutation_map. apply Permutation_rev.
      + assert (At : forall i, i < u -> nth_error a i = nth_error (firstn u s) i \/ (0 < i /\ nth_error a i = nth_error a (i - 1))).
        { intros i Hi. assert (Ef : nth_error (firstn u s) i = nth_error s i) by (now apply nth_error_firstn').
          rewrite Ef. assert (Hin : In i (map fst (firsts None 0 a) ++ others None 0 a)) by (apply (Permutation_in _ (Permutation_sym P2)), in_seq; lia).
          apply in_app_or in Hin. destruct Hin as [Hin|Hin].
          - apply in_map_iff in Hin. destruct Hin as ([j x] & Ej & Hx). cbn [fst] in Ej. subst j. left. rewrite (Gf i x Hx). apply firsts_value in Hx. rewrite Nat.sub_0_r in Hx. apply Hx.
          - apply others_value in Hin. rewrite Nat.sub_0_r in Hin. destruct Hin as [_ [[-> E0]|[L E0]]]; [|now right]. destruct a; cbn in La, E0; [lia|discriminate]. }
        split; [|exact At]. destruct (At 0) as [H|[H _]]; [lia|exact H|lia].
  Qed.
End Lookup.
