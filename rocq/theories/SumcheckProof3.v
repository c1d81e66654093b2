(** Proofs about linear combinations of products. *)
From Coq Require Import ZArith Lia List Bool Arith Ring Field Field_theory ZifyBool ZifyNat.
From Verif Require Import Field BigIntModel BitsModel ParallelizeModel ParallelizeSpec ParallelizeProof ParallelizeExtra Chunked SemigroupModel PolySpec PolyModel PolyProof PolyProof3 KzgProof2
  SumcheckModel SumcheckSpec SumcheckProof SumcheckProof2.
Import ListNotations.
Open Scope fld_scope.

(** The pointer an index stands for. *)
Definition resolves (flat : list nat) (index ptr : nat) : Prop := nth_error flat index = Some ptr.
Lemma resolves_app flat more index ptr : resolves flat index ptr -> resolves (flat ++ more) index ptr.
Proof. unfold resolves. intros H. rewrite nth_error_app1; [exact H|]. apply nth_error_Some. congruence. Qed.
Lemma Forall2_resolves_app flat more ix ps : Forall2 (resolves flat) ix ps -> Forall2 (resolves (flat ++ more)) ix ps.
Proof. induction 1; constructor; auto using resolves_app. Qed.
Definition table_ok (flat : list nat) (table : list (nat * nat)) : Prop :=
  (forall e, In e table -> resolves flat (snd e) (fst e)) /\ (forall p, In p flat -> exists i, In (p, i) table).

Section Lc.
  Variable K : fld.
  Add Field Ks3 : (fld_theory K).
  Variables (heap : nat -> list K) (n : nat).
  Hypothesis Hn : (n < 64)%nat.
  Implicit Types (ts : list (K * list nat)) (x : list K).
  Definition good (p : nat) : Prop := length (heap p) = Nat.pow 2 n.

  Lemma add_pointers : forall ptrs flat table ix, Forall good ptrs -> table_ok flat table -> NoDup flat -> exists more table' ix',
    ofold (add_pointer heap n) ptrs (flat, table, ix) = Some (flat ++ more, table', ix ++ ix') /\ table_ok (flat ++ more) table' /\ NoDup (flat ++ more) /\
    incl more ptrs /\ Forall2 (resolves (flat ++ more)) ix' ptrs.
  Proof.
    induction ptrs as [|p ptrs IH]; intros flat table ix Hg [T1 T2] ND; cbn [ofold].
    - exists [], table, []. rewrite !app_nil_r. repeat split; auto. intros ? [].
    - inversion Hg as [|? ? Hp Hg']; subst. unfold add_pointer at 1. rewrite (degree_pow2 K (heap p) n Hn Hp), Nat.eqb_refl.
      destruct (find (fun e => Nat.eqb (fst e) p) table) as [e|] eqn:F.
      + apply find_some in F. destruct F as [Fi Fe]. apply Nat.eqb_eq in Fe.
        destruct (IH flat table (ix ++ [snd e]) Hg' (conj T1 T2) ND) as (more & table' & ix' & E & T & N & I & R).
        exists more, table', (snd e :: ix'). rewrite E. rewrite <- app_assoc. split; [reflexivity|]. split; [exact T|]. split; [exact N|]. split; [intros q Hq; right; apply I, Hq|].
        constructor; [|exact R]. apply resolves_app. rewrite <- Fe. apply T1. exact Fi.
      + assert (Np : ~ In p flat). { intros Hin. destruct (T2 p Hin) as (i & Hi). pose proof (find_none _ _ F _ Hi) as X. cbn in X. rewrite Nat.eqb_refl in X. discriminate. }
        assert (T' : table_ok (flat ++ [p]) (table ++ [(p, length flat)])).
        { split.
          - intros e He. apply in_app_iff in He. destruct He as [He|[<-|[]]]; [apply resolves_app, T1, He|]. unfold resolves. cbn [fst snd].
            rewrite nth_error_app2, Nat.sub_diag by lia. reflexivity.
          - intros q Hq. apply in_app_iff in Hq. destruct Hq as [Hq|[<-|[]]].
            + destruct (T2 q Hq) as (i & Hi). exists i. apply in_app_iff. left. exact Hi.
            + exists (length flat). apply in_app_iff. right. left. reflexivity. }
        assert (N' : NoDup (flat ++ [p])). { apply NoDup_rev in ND. rewrite <- (rev_involutive (flat ++ [p])). apply NoDup_rev. rewrite rev_app_distr. cbn [rev app]. constructor; [rewrite <- in_rev; exact Np|exact ND]. }
        destruct (IH (flat ++ [p]) (table ++ [(p, length flat)]) (ix ++ [length flat]) Hg' T' N') as (more & table' & ix' & E & T & N & I & R).
        exists (p :: more), table', (length flat :: ix'). rewrite E. rewrite <- !app_assoc in *. cbn [app] in *.
        split; [reflexivity|]. split; [exact T|]. split; [exact N|]. split; [intros q [->|Hq]; [left; reflexivity|right; apply I, Hq]|].
        constructor; [|exact R]. unfold resolves. rewrite nth_error_app2, Nat.sub_diag by lia. reflexivity.
  Qed.

  (** What a run of AddTerm leaves. *)
  Definition term_is (flat : list nat) (t : term K) (s : K * list nat) : Prop := t_coeff t = fst s /\ Forall2 (resolves flat) (t_indexes t) (snd s).
  Definition keeps ts : list (K * list nat) := filter (fun t => negb (no_factors t)) ts.
  Definition stands (lc : lincomb K) ts : Prop :=
    lc_vars lc = n /\ lc_max lc = max_factors ts /\ Forall2 (term_is (lc_flat lc)) (lc_terms lc) (keeps ts) /\ table_ok (lc_flat lc) (lc_lookup lc) /\ NoDup (lc_flat lc) /\
    Forall good (lc_flat lc).
  Lemma term_is_app flat more t s : term_is flat t s -> term_is (flat ++ more) t s.
  Proof. intros [H1 H2]. split; [exact H1|apply Forall2_resolves_app; exact H2]. Qed.
  Lemma max_factors_app ts c ps : max_factors (ts ++ [(c, ps)]) = Nat.max (max_factors ts) (length ps).
  Proof. unfold max_factors. induction ts as [|t ts IH]; cbn [app map fold_right]; [cbn [snd]; lia|]. rewrite IH. lia. Qed.
  Lemma add_term_ok lc ts c ps : stands lc ts -> Forall good ps -> exists lc', add_lc_term heap lc c ps = Some lc' /\ stands lc' (ts ++ [(c, ps)]).
  Proof.
    intros (V & M & T & TO & ND & G) Hg. unfold add_lc_term, stands. rewrite V, max_factors_app. unfold keeps in *. rewrite filter_app. cbn [filter]. destruct ps as [|p0 ps].
    - exists lc. cbn [no_factors snd negb length]. rewrite app_nil_r, Nat.max_0_r. split; [reflexivity|]. repeat split; auto; apply TO.
    - destruct (add_pointers (p0 :: ps) (lc_flat lc) (lc_lookup lc) [] Hg TO ND) as (more & table' & ix' & E & T' & N' & I & R). rewrite E. eexists. split; [reflexivity|].
      cbn [lc_vars lc_max lc_terms lc_flat lc_lookup no_factors snd negb]. cbn [app]. split; [reflexivity|]. split; [lia|]. split.
      { apply Forall2_app; [|constructor; [|constructor]; split; [reflexivity|exact R]]. clear -T. induction T; constructor; auto using term_is_app. }
      split; [exact T'|]. split; [exact N'|]. apply Forall_app. split; [exact G|]. rewrite Forall_forall in *. intros q Hq. apply Hg, I, Hq.
  Qed.
  Lemma build_from : forall ts lc done, stands lc done -> Forall (fun t => Forall good (snd t)) ts ->
    exists lc', ofold (fun lc t => add_lc_term heap lc (fst t) (snd t)) ts lc = Some lc' /\ stands lc' (done ++ ts).
  Proof.
    induction ts as [|[c ps] ts IH]; intros lc dn S H; cbn [ofold].
    - exists lc. rewrite app_nil_r. split; [reflexivity|exact S].
    - inversion H as [|? ? H1 H2]; subst. cbn [fst snd] in *. destruct (add_term_ok lc dn c ps S H1) as (lc' & E & S'). rewrite E.
      destruct (IH lc' (dn ++ [(c, ps)]) S' H2) as (lc2 & E2 & S2). exists lc2. rewrite <- app_assoc in S2. split; [exact E2|exact S2].
  Qed.
  Lemma build_ok ts : Forall (fun t => Forall good (snd t)) ts -> exists lc, build_lc heap n ts = Some lc /\ stands lc ts.
  Proof.
    intros H. apply (build_from ts (lc_new n) []); [|exact H]. unfold stands, lc_new. cbn. repeat split; auto; try constructor; intros ? [].
  Qed.
  (** A table of another degree aborts. *)
  Lemma add_pointers_wrong : forall ptrs s, Exists (fun p => mle_degree (heap p) <> n) ptrs -> ofold (add_pointer heap n) ptrs s = None.
  Proof.
    induction ptrs as [|p ptrs IH]; intros s H; [inversion H|]. cbn [ofold]. destruct (add_pointer heap n s p) as [s'|] eqn:E; [|reflexivity].
    inversion H as [? ? Hp|? ? Hp]; subst; [|apply IH; exact Hp]. unfold add_pointer in E. destruct s as [[? ?] ?]. apply Nat.eqb_neq in Hp. rewrite Hp in E. discriminate.
  Qed.

  (** *** Sums over pieces *)
  Lemma ofold_sum {A} (f : A -> option K) (g : A -> K) : forall l a, (forall i, In i l -> f i = Some (g i)) ->
    ofold (fun acc i => option_map (fadd acc) (f i)) l a = Some (a + fsum (map g l)).
  Proof.
    induction l as [|i l IH]; intros a H; cbn [ofold map fsum]; [f_equal; ring|]. rewrite (H i) by (left; reflexivity). cbn [option_map].
    rewrite IH by (intros; apply H; right; assumption). f_equal. ring.
  Qed.
  Lemma ofold_prod {A} (f : A -> option K) (g : A -> K) : forall l a, (forall i, In i l -> f i = Some (g i)) ->
    ofold (fun acc i => option_map (fmul acc) (f i)) l a = Some (a * fprod (map g l)).
  Proof.
    induction l as [|i l IH]; intros a H; cbn [ofold map fprod]; [f_equal; ring|]. rewrite (H i) by (left; reflexivity). cbn [option_map].
    rewrite IH by (intros; apply H; right; assumption). f_equal. ring.
  Qed.
  Lemma fsum_concat (L : list (list K)) : fsum (map fsum L) = fsum (concat L).
  Proof. induction L as [|l L IH]; cbn [map fsum concat]; [reflexivity|]. rewrite IH, fsum_app. reflexivity. Qed.
  Lemma fprod_concat (L : list (list K)) : fprod (map fprod L) = fprod (concat L).
  Proof. induction L as [|l L IH]; cbn [map fprod concat]; [reflexivity|]. rewrite IH, fprod_app. reflexivity. Qed.
  Lemma chunked_ext {A B} (f g : nat -> list A -> B) : forall ps off, (forall o p, In p ps -> f o p = g o p) -> chunked f off ps = chunked g off ps.
  Proof. induction ps as [|p ps IH]; intros off H; cbn [chunked]; [reflexivity|]. rewrite H by (left; reflexivity). rewrite IH; [reflexivity|]. intros; apply H; right; assumption. Qed.
  Lemma chunked_map {A B} (f : list A -> B) : forall ps off, chunked (fun _ => f) off ps = map f ps.
  Proof. induction ps as [|p ps IH]; intros off; cbn [chunked map]; [reflexivity|]. rewrite IH. reflexivity. Qed.
  Lemma over_terms_ok threads (f : term K -> option K) (g : term K -> K) terms : (0 < threads)%Z -> (2 * Z.of_nat (length terms) + threads < 2 ^ 64)%Z ->
    (forall t, In t terms -> f t = Some (g t)) -> over_terms threads f terms = Some (fsum (map g terms)).
  Proof.
    intros Ht Hb H. unfold over_terms.
    destruct (map_chunked threads None (fun _ _ chunk => ofold (fun acc t => option_map (fadd acc) (f t)) chunk 0)
      (fun _ chunk => ofold (fun acc t => option_map (fadd acc) (f t)) chunk 0) terms Ht Hb ltac:(reflexivity)) as (ps & C & _ & _ & E).
    rewrite E, chunked_map. rewrite (all_some_ext _ (fun p => fsum (map g p))).
    - cbn [option_map]. f_equal. rewrite fold_left_add. rewrite <- C, concat_map, <- fsum_concat, map_map. ring.
    - intros p Hp. rewrite (ofold_sum f g); [f_equal; ring|]. intros t Hi. apply H. rewrite <- C. apply in_concat. exists p. split; assumption.
  Qed.
  Lemma resolved_prod flat (h : nat -> K) : forall ix ps, Forall2 (resolves flat) ix ps -> forall (f : nat -> option K), (forall p, In p ps -> f p = Some (h p)) -> forall a,
    ofold (fun acc index => match nth_error flat index with None => None | Some ptr => option_map (fmul acc) (f ptr) end) ix a = Some (a * fprod (map h ps)).
  Proof.
    induction 1 as [|i p ix ps R _ IH]; intros f H a; cbn [ofold map fprod]; [f_equal; ring|]. rewrite R, (H p) by (left; reflexivity). cbn [option_map].
    rewrite IH by (intros; apply H; right; assumption). f_equal. ring.
  Qed.
  Lemma Forall2_app_inv_l' {A B} (R : A -> B -> Prop) : forall (Ls : list (list A)) r, Forall2 R (concat Ls) r -> exists Rs, r = concat Rs /\ Forall2 (Forall2 R) Ls Rs.
  Proof.
    induction Ls as [|l Ls IH]; intros r H; cbn [concat] in H.
    - inversion H; subst. exists []. split; [reflexivity|constructor].
    - apply Forall2_app_inv_l in H. destruct H as (r1 & r2 & H1 & H2 & ->). destruct (IH r2 H2) as (Rs & -> & HR). exists (r1 :: Rs). split; [reflexivity|constructor; assumption].
  Qed.
  (** Evaluate and Combine of a term. *)
  Lemma term_evaluate_ok threads md flat x t s : (0 < threads)%Z -> (2 * Z.of_nat (length (snd s)) + threads < 2 ^ 64)%Z -> (n <= md)%nat -> length x = n -> term_is flat t s ->
    Forall good (snd s) -> term_evaluate heap threads md flat x t = Some (fst s * fprod (map (fun p => mlx (heap p) x) (snd s))).
  Proof.
    intros Ht Hb Hm Hx [Hc Hr] Hg. unfold term_evaluate. pose proof (Forall2_length _ _ _ Hr) as HL.
    pose (cb := fun chunk => ofold (fun acc index => match nth_error flat index with None => None | Some ptr => option_map (fmul acc) (mle_evaluate md (heap ptr) x) end) chunk 1).
    match goal with |- context [parallelize_map_by_chunk ?c _ ?l] => change (parallelize_map_by_chunk c _ l) with (parallelize_map_by_chunk c (fun _ _ chunk => cb chunk) l) end.
    destruct (map_chunked threads None (fun _ _ chunk => cb chunk) (fun _ chunk => cb chunk) (t_indexes t) Ht ltac:(rewrite HL; exact Hb) ltac:(reflexivity)) as (ps & C & _ & _ & E).
    rewrite E, chunked_map. clear E. rewrite <- C in Hr. apply Forall2_app_inv_l' in Hr. destruct Hr as (Rs & ER & HR).
    assert (A : all_some (map cb ps) = Some (map (fun r => fprod (map (fun p => mlx (heap p) x) r)) Rs)).
    { clear C HL. assert (HG : Forall (Forall good) Rs). { rewrite ER in Hg. clear -Hg. induction Rs; [constructor|]. cbn [concat] in Hg. apply Forall_app in Hg. destruct Hg. constructor; auto. }
      clear ER. induction HR as [|c r ps Rs HR1 HR IH]; [reflexivity|]. inversion HG as [|? ? G1 G2]; subst. cbn [map all_some]. unfold cb at 1.
      rewrite (resolved_prod flat (fun p => mlx (heap p) x) c r HR1 (fun ptr => mle_evaluate md (heap ptr) x)).
      - rewrite (IH G2). cbn [option_map]. do 2 f_equal. cbv beta. ring.
      - intros p Hp. rewrite Forall_forall in G1. apply (evaluate_ok K md n); auto. apply G1. exact Hp. }
    change (map (fun chunk => cb chunk) ps) with (map cb ps). rewrite A, fold_left_mul, Hc. f_equal. rewrite ER, concat_map, <- fprod_concat, map_map. ring.
  Qed.
  Lemma entry_product_ok flat i ix ps : (i < Nat.pow 2 n)%nat -> Forall2 (resolves flat) ix ps -> Forall good ps -> entry_product heap flat i ix = Some (fprod (map (fun p => nth i (heap p) 0) ps)).
  Proof.
    intros Hi HR HG. unfold entry_product.
    replace (Some (fprod (map (fun p => nth i (heap p) 0) ps))) with (Some (1 * fprod (map (fun p => nth i (heap p) 0) ps))) by (f_equal; ring).
    rewrite <- (resolved_prod flat (fun p => nth i (heap p) 0) ix ps HR (fun p => nth_error (heap p) i)).
    - generalize (1 : K). revert HG. induction HR as [|j p ix ps R HR IH]; intros HG a; [reflexivity|]. inversion HG as [|? ? G1 G2]; subst. cbn [ofold]. rewrite R.
      destruct (nth_error (heap p) i) eqn:E; [cbn [option_map]; apply IH; exact G2|]. apply nth_error_None in E. unfold good in G1. lia.
    - intros p Hp. rewrite Forall_forall in HG. apply nth_error_nth'. rewrite (HG p Hp). exact Hi.
  Qed.
  Lemma term_combine_ok threads flat t s : (0 < threads)%Z -> (2 * Z.of_nat (Nat.pow 2 n) + threads < 2 ^ 64)%Z -> term_is flat t s -> Forall good (snd s) -> snd s <> [] ->
    term_combine heap threads n flat t = Some (fst s * fsum (map (fun i => fprod (map (fun p => nth i (heap p) 0) (snd s))) (seq 0 (Nat.pow 2 n)))).
  Proof.
    intros Ht Hb [Hc Hr] HG Hne. unfold term_combine. destruct (t_indexes t) as [|i0 ix0] eqn:E; [inversion Hr; subst; congruence|]. rewrite <- E in *. clear E i0 ix0.
    pose proof (Nat.pow_nonzero 2 n ltac:(lia)) as P.
    destruct (size_chunks_ok threads (16 * threads) (Nat.pow 2 n) Ht ltac:(lia) Hb) as [_ CC].
    set (h := fun i => fprod (map (fun p => nth i (heap p) 0) (snd s))).
    rewrite (all_some_ext _ (fun c => fsum (map h (seq (fst c) (snd c))))).
    - rewrite fold_left_add, Hc. f_equal. fold h. rewrite <- CC, concat_map, <- fsum_concat, !map_map. ring.
    - intros c Hin. rewrite (ofold_sum _ h); [f_equal; ring|]. intros i Hi. apply entry_product_ok; [|exact Hr|exact HG].
      assert (In i (seq 0 (Nat.pow 2 n))). { rewrite <- CC. apply in_concat. exists (seq (fst c) (snd c)). split; [|exact Hi]. apply in_map_iff. exists c. split; [reflexivity|exact Hin]. }
      apply in_seq in H. lia.
  Qed.
  Lemma keeps_good ts : Forall (fun t => Forall good (snd t)) ts -> Forall (fun t => Forall good (snd t) /\ snd t <> []) (keeps ts).
  Proof.
    intros H. unfold keeps. apply Forall_forall. intros t Ht. apply filter_In in Ht. destruct Ht as [Hin Hne]. rewrite Forall_forall in H. split; [apply H, Hin|].
    intros E. unfold no_factors in Hne. rewrite E in Hne. discriminate.
  Qed.
  Lemma Forall2_fsum {A B} (R : A -> B -> Prop) (f : A -> K) (g : B -> K) la lb : Forall2 R la lb -> (forall a b, R a b -> In b lb -> f a = g b) -> fsum (map f la) = fsum (map g lb).
  Proof. induction 1; intros H1; cbn [map fsum]; [reflexivity|]. rewrite (H1 x y); auto; [|left; reflexivity]. rewrite IHForall2; [reflexivity|]. intros; apply H1; [assumption|right; assumption]. Qed.
  Definition value_of (o : option K) : K := match o with Some v => v | None => 0 end.
  Lemma over_terms_stands threads (f : term K -> option K) (g : K * list nat -> K) lc ts : (0 < threads)%Z -> (2 * Z.of_nat (length ts) + threads < 2 ^ 64)%Z -> stands lc ts ->
    Forall (fun t => Forall good (snd t)) ts ->
    (forall t s, term_is (lc_flat lc) t s -> In s (keeps ts) -> Forall good (snd s) -> snd s <> [] -> f t = Some (g s)) -> over_terms threads f (lc_terms lc) = Some (fsum (map g (keeps ts))).
  Proof.
    intros Ht Hb (_ & _ & T & _) HG H. pose proof (keeps_good ts HG) as KG. rewrite Forall_forall in KG.
    assert (HL : (length (keeps ts) <= length ts)%nat). { unfold keeps. clear. induction ts as [|t ts IH]; cbn [filter length]; [lia|]. destruct (negb _); cbn [length]; lia. }
    rewrite (over_terms_ok threads f (fun t => value_of (f t))).
    - f_equal. apply (Forall2_fsum (term_is (lc_flat lc))); [exact T|]. intros t s Hts Hin. destruct (KG s Hin). rewrite (H t s) by auto. reflexivity.
    - exact Ht.
    - rewrite (Forall2_length _ _ _ T). lia.
    - intros t Hin. apply In_nth_error in Hin. destruct Hin as (k & Hk).
      assert (exists s, In s (keeps ts) /\ term_is (lc_flat lc) t s) as (s & Hs & Hts).
      { clear -T Hk. revert k Hk. induction T; intros [|k] Hk; try discriminate; cbn in Hk.
        - injection Hk as ->. exists y. split; [left; reflexivity|assumption].
        - destruct (IHT k Hk) as (s & I & R). exists s. split; [right; exact I|exact R]. }
      destruct (KG s Hs). rewrite (H t s) by auto. reflexivity.
  Qed.
  Lemma lc_evaluate_ok threads md lc ts x : (0 < threads)%Z -> (n <= md)%nat -> (2 * Z.of_nat (length ts) + threads < 2 ^ 64)%Z ->
    Forall (fun t => (2 * Z.of_nat (length (snd t)) + threads < 2 ^ 64)%Z) ts -> Forall (fun t => Forall good (snd t)) ts -> stands lc ts -> length x = n ->
    lc_evaluate heap threads md lc x = Some (combination heap ts x).
  Proof.
    intros Ht Hm Hb Hbs HG S Hx. unfold lc_evaluate. assert (V : lc_vars lc = n) by apply S. rewrite V, Hx, Nat.eqb_refl.
    apply (over_terms_stands threads _ (fun t => fst t * fprod (map (fun p => mlx (heap p) x) (snd t)))); try assumption.
    intros t s R Hs G _. apply term_evaluate_ok; auto. unfold keeps in Hs. apply filter_In in Hs. rewrite Forall_forall in Hbs. apply Hbs, Hs.
  Qed.
  Lemma combination_corner ts b : (b < Nat.pow 2 n)%nat -> combination heap ts (corner n b) = fsum (map (fun s => fst s * fprod (map (fun p => nth b (heap p) 0) (snd s))) (keeps ts)).
  Proof.
    intros Hb. unfold combination. apply fsum_map_ext. intros s _. do 2 f_equal. apply map_ext. intros p. apply mlx_corner. exact Hb.
  Qed.
  Lemma lc_combine_ok threads lc ts : (0 < threads)%Z -> (2 * Z.of_nat (Nat.pow 2 n) + threads < 2 ^ 64)%Z -> (2 * Z.of_nat (length ts) + threads < 2 ^ 64)%Z ->
    Forall (fun t => Forall good (snd t)) ts -> stands lc ts -> lc_combine heap threads lc = Some (cube_sum n (combination heap ts)).
  Proof.
    intros Ht Hb Hbs HG S. unfold lc_combine. assert (V : lc_vars lc = n) by apply S. rewrite V.
    rewrite (over_terms_stands threads _ (fun s => fst s * fsum (map (fun i => fprod (map (fun p => nth i (heap p) 0) (snd s))) (seq 0 (Nat.pow 2 n)))) lc ts); try assumption.
    - f_equal. unfold cube_sum. rewrite (fsum_map_ext K (fun b => combination heap ts (corner n b)) (fun b => fsum (map (fun s => fst s * fprod (map (fun p => nth b (heap p) 0) (snd s))) (keeps ts)))).
      + rewrite fsum_swap. apply fsum_map_ext. intros s _. rewrite fsum_map_mul. reflexivity.
      + intros b Hbb. apply combination_corner. apply in_seq in Hbb. lia.
    - intros t s R Hs G Hne. apply term_combine_ok; auto.
  Qed.
End Lc.
