(** Soundness of the log-derivative lookup, of the shuffle and of the compression of several columns into one, counted over the challenges. *)
From Coq Require Import ZArith List Arith Bool Lia Permutation ListDec Ring Field Field_theory.
From Verif Require Import Field PolySpec PolyProof PolyProof2 PolyProof3 GrandProductModel GrandProductSpec GrandProductProof GrandProductExtra GrandProductPerm GrandProductSound FrobProof LogDerivModel LogDerivSpec LogDerivProof LogDerivProof2 LogDerivExtra.
Import ListNotations.
Open Scope nat_scope.

(** ** Counting. *)
Lemma heavy : forall {A B : Type} (P : B -> A -> bool) (S : list B) (k : nat) (T : list A), length S * k < length T -> (forall x, In x T -> exists s, In s S /\ P s x = true) ->
  exists s, In s S /\ k < length (filter (P s) T).
Proof.
  intros A B P S k. induction S as [|s S IH]; intros T HL H.
  - destruct T as [|x T]; [cbn in HL; lia|]. destruct (H x (or_introl eq_refl)) as (s & [] & _).
  - destruct (Nat.lt_ge_cases k (length (filter (P s) T))) as [C|C]; [exists s; split; [now left|exact C]|].
    assert (L : length T = length (filter (P s) T) + length (filter (fun x => negb (P s x)) T)).
    { clear. induction T as [|x T IH]; [reflexivity|]. cbn [filter length]. destruct (P s x); cbn [negb length]; lia. }
    destruct (IH (filter (fun x => negb (P s x)) T)) as (s' & Hs & Hk).
    + cbn [length] in HL. cbn in HL. lia.
    + intros x Hx. apply filter_In in Hx. destruct Hx as [Hx E]. destruct (H x Hx) as (s' & [->|Hs] & Hp); [rewrite Hp in E; discriminate|]. now exists s'.
    + exists s'. split; [now right|]. enough (length (filter (P s') (filter (fun x => negb (P s x)) T)) <= length (filter (P s') T)) by lia.
      clear. induction T as [|x T IH]; [reflexivity|]. cbn [filter]. destruct (P s x), (P s' x) eqn:E; cbn [negb filter length]; rewrite ?E; cbn [length]; lia.
Qed.
Lemma perm_map_inv : forall {A B : Type} (f : A -> B) (l r : list A), (forall x y, In x l -> In y r -> f x = f y -> x = y) -> Permutation (map f l) (map f r) -> Permutation l r.
Proof.
  intros A B f l. induction l as [|x l IH]; intros r Hi HP.
  - apply Permutation_nil in HP. destruct r; [constructor|discriminate].
  - cbn [map] in HP. assert (Hin : In (f x) (map f r)) by (apply (Permutation_in _ HP); now left). apply in_map_iff in Hin. destruct Hin as (y & E & Hy).
    assert (x = y) by (apply Hi; [now left|exact Hy|now symmetry]). subst y. apply in_split in Hy. destruct Hy as (p & q & ->). rewrite <- Permutation_middle. apply perm_skip. apply IH.
    + intros a b Ha Hb. apply Hi; [now right|]. apply in_app_iff in Hb. apply in_app_iff. destruct Hb; [now left|now right; right].
    + rewrite map_app in *. cbn [map] in HP. rewrite map_app in HP || idtac. cbn [map] in HP. apply Permutation_cons_app_inv in HP. exact HP.
Qed.

Section Sound.
  Variable K : fld.
  Add Field Kld4 : (fld_theory K).
  Open Scope fld_scope.
  Notation fdec := (fdec K).

  (** ** Sums of fractions with distinct denominators. *)
  Lemma sum_poly : forall (ps : list (list K)) N, (forall p, In p ps -> (length p <= N)%nat) -> exists q, (length q <= N)%nat /\ forall x, eval q x = fsum (map (fun p => eval p x) ps).
  Proof.
    induction ps as [|p ps IH]; intros N H.
    - exists []. split; [cbn; lia|]. intros x. apply eval_nil.
    - destruct (IH N) as (q & Hq & E); [intros p' Hp; apply H; now right|]. exists (map (fun i => coeff p i + coeff q i) (seq 0 N)). split; [rewrite map_length, seq_length; lia|].
      intros x. cbn [map fsum]. rewrite <- E. rewrite (eval_linear K p q _ 1 1); [ring|]. intros i. rewrite coeff_map_seq. specialize (H p (or_introl eq_refl)). destruct (Nat.ltb_spec i N); [ring|]. rewrite !coeff_over by lia. ring.
  Qed.
  Lemma without_one : forall (D : list K) x, NoDup D -> In x D -> Permutation D (x :: without fdec D [x]).
  Proof.
    intros D x N H. apply NoDup_Permutation; [exact N| |].
    - constructor; [|now apply NoDup_filter]. intros Hx. apply without_in in Hx. destruct Hx as [_ Hx]. apply Hx. now left.
    - intros y. cbn [In]. rewrite without_in. cbn [In]. destruct (fdec x y) as [->|C]; [tauto|]. split; [intros Hy; right; tauto|intros [?|[? _]]; [contradiction|assumption]].
  Qed.
  Lemma fractions : forall (D : list K) (c : K -> K) (B : list K), NoDup D -> NoDup B -> (2 * length D <= length B)%nat ->
    (forall b, In b B -> (forall x, In x D -> x + b <> 0) -> fsum (map (fun x => c x * finv (x + b)) D) = 0) -> forall v, In v D -> c v = 0.
  Proof.
    intros D c B ND NB HL H v Hv. set (B' := without fdec B (map fopp D)).
    assert (Hne : forall b, In b B' -> In b B /\ forall x, In x D -> x + b <> 0).
    { intros b Hb. apply without_in in Hb. destruct Hb as [Hb Nb]. split; [exact Hb|]. intros x Hx E. apply Nb. apply in_map_iff. exists x. split; [|exact Hx]. transitivity (b - (x + b)); [ring|]. rewrite E. ring. }
    assert (LB : (length D <= length B')%nat) by (pose proof (without_length fdec B (map fopp D) NB) as W; rewrite map_length in W; unfold B'; lia).
    destruct (sum_poly (map (fun x => lp K (c x) (without fdec D [x])) D) (length D)) as (q & Lq & Eq).
    { intros p Hp. apply in_map_iff in Hp. destruct Hp as (x & <- & Hx). rewrite lp_length. rewrite (Permutation_length (without_one D x ND Hx)). cbn [length]. lia. }
    assert (Ev : forall b, eval q b = fsum (map (fun x => c x * shifted K (without fdec D [x]) b) D)).
    { intros b. rewrite Eq, map_map. apply fsum_map_ext. intros x _. apply lp_eval. }
    assert (Z : forall i, coeff q i = 0).
    { apply (roots_bound K B'); [now apply NoDup_filter|lia|]. intros b Hb. destruct (Hne b Hb) as [Hb' Hx]. rewrite Ev.
      transitivity (shifted K D b * fsum (map (fun x => c x * finv (x + b)) D)); [|rewrite (H b Hb' Hx); ring]. rewrite <- fsum_map_mul. apply fsum_map_ext. intros x Hxd.
      rewrite (shifted_perm K D _ b (without_one D x ND Hxd)). unfold shifted at 2. cbn [map fprod]. fold (shifted K (without fdec D [x]) b). field. now apply Hx. }
    assert (E0 : eval q (- v) = 0) by (rewrite (eval_ext K q []); [apply eval_nil|]; intros i; rewrite Z; unfold coeff; now destruct i).
    rewrite Ev in E0. rewrite (fsum_perm K _ _ (Permutation_map _ (without_one D v ND Hv))) in E0. cbn [map fsum] in E0. rewrite (fsum_map_zero K) in E0.
    - assert (E1 : c v * shifted K (without fdec D [v]) (- v) = 0) by (rewrite <- E0; ring). apply fmul_integral in E1. destruct E1 as [E1|E1]; [exact E1|]. apply shifted_zero in E1. apply without_in in E1. destruct E1 as [_ E1].
      exfalso. apply E1. left. ring.
    - intros x Hx. apply without_in in Hx. destruct Hx as [Hx Nx]. assert (Hvx : In v (without fdec D [x])) by (apply without_in; split; [exact Hv|]; intros [E|[]]; apply Nx; left; now symmetry).
      rewrite (shifted_perm K (without fdec D [x]) _ (- v) (without_one (without fdec D [x]) v (NoDup_filter _ ND) Hvx)). unfold shifted. cbn [map fprod]. ring.
  Qed.
  (** Weighted values grouped by value. *)
  Definition weight (x : K) (W : list (K * K)) : K := fsum (map (fun p => if fdec (snd p) x then fst p else 0) W).
  Lemma one_delta : forall (D : list K) (g : K -> K) w x, NoDup D -> In x D -> fsum (map (fun y => (if fdec x y then w else 0) * g y) D) = w * g x.
  Proof.
    intros D g w x N H. rewrite (fsum_perm K _ _ (Permutation_map _ (without_one D x N H))). cbn [map fsum]. rewrite (fsum_map_zero K).
    - destruct (fdec x x); [ring|contradiction].
    - intros y Hy. apply without_in in Hy. destruct Hy as [_ Hy]. destruct (fdec x y) as [->|C]; [exfalso; apply Hy; now left|ring].
  Qed.
  Lemma regroup : forall (W : list (K * K)) (D : list K) (g : K -> K), NoDup D -> (forall p, In p W -> In (snd p) D) ->
    fsum (map (fun p => fst p * g (snd p)) W) = fsum (map (fun x => weight x W * g x) D).
  Proof.
    intros W D g N. induction W as [|[w x] W IH]; intros H.
    - cbn [map fsum]. symmetry. apply fsum_map_zero. intros y _. unfold weight. cbn. ring.
    - cbn [map fsum fst snd]. rewrite IH by (intros p Hp; apply H; now right). rewrite <- (one_delta D g w x N (H (w, x) (or_introl eq_refl))). rewrite <- fsum_map_add. apply fsum_map_ext. intros y _.
      unfold weight. cbn [map fsum fst snd]. ring.
  Qed.

  (** ** The log-derivative lookup. *)
  Lemma sum_telescope : forall (s d : nat -> K) u, (forall j, (j < u)%nat -> s (S j) - s j = d j) -> s u - s 0%nat = fsum (map d (seq 0 u)).
  Proof.
    intros s d. induction u as [|u IH]; intros H; [cbn; ring|]. rewrite (fsum_seq_S K). rewrite <- IH by (intros j Hj; apply H; lia). rewrite <- (H u) by lia. ring.
  Qed.
  Definition weighted_values (u : nat) (inputs : list (nat -> K)) (table m : nat -> K) : list (K * K) := map (fun v => (1, v)) (values_of u inputs) ++ map (fun k => (- m k, table k)) (seq 0 u).
  Lemma accepted_sum : forall n u inputs table m beta, (0 < u < n)%nat -> log_deriv_accepts n u inputs table m beta ->
    (forall p, In p (weighted_values u inputs table m) -> snd p + beta <> 0) ->
    fsum (map (fun p => fst p * finv (snd p + beta)) (weighted_values u inputs table m)) = 0.
  Proof.
    intros n u inputs table m beta Hu (s & Hs) Hne. unfold weighted_values in *.
    assert (Ht : forall k, (k < u)%nat -> table k + beta <> 0) by (intros k Hk; apply (Hne (- m k, table k)); apply in_app_iff; right; apply in_map_iff; exists k; split; [reflexivity|apply in_seq; lia]).
    assert (Hf : forall f j, In f inputs -> (j < u)%nat -> f j + beta <> 0).
    { intros f j Hf Hj. apply (Hne (1, f j)). apply in_app_iff. left. apply in_map_iff. exists (f j). split; [reflexivity|]. apply values_in. exists f, j. auto. }
    rewrite map_app, fsum_app, !map_map. cbn [fst snd].
    assert (S0 : s 0%nat = 0).
    { specialize (Hs 0%nat ltac:(lia)). unfold evaluator_terms in Hs. cbv zeta in Hs. injection Hs as H1 _ _. unfold first_row in H1. cbn [Nat.eqb] in H1. rewrite <- H1. ring. }
    assert (Su : s u = 0).
    { specialize (Hs u ltac:(lia)). unfold evaluator_terms in Hs. cbv zeta in Hs. injection Hs as _ H1 _. unfold last_row in H1. rewrite Nat.eqb_refl in H1. rewrite <- H1. ring. }
    assert (St : forall j, (j < u)%nat -> s (S j) - s j = fsum (map (fun f => finv (f j + beta)) inputs) - m j * finv (table j + beta)).
    { intros j Hj. specialize (Hs j ltac:(lia)). unfold evaluator_terms in Hs. cbv zeta in Hs. injection Hs as _ _ H1. rewrite flags_one' in H1 by exact Hj.
      apply term_active in H1; [|now apply Ht|intros x Hx; apply in_map_iff in Hx; destruct Hx as (f & <- & Hx); now apply Hf]. rewrite next_row_lt in H1 by lia. replace (S j) with (j + 1)%nat by lia. rewrite H1, map_map. reflexivity. }
    apply sum_telescope in St. rewrite S0, Su in St.
    rewrite (fsum_map_ext K _ (fun v => finv (v + beta))) by (intros v _; ring). rewrite (fsum_values K u inputs (fun v => finv (v + beta))). rewrite <- fsum_map_add.
    transitivity (0 - 0 : K); [|ring]. rewrite St. apply fsum_map_ext. intros j _. ring.
  Qed.
  Lemma weight_inputs : forall v (l : list K), weight v (map (fun x => (1, x)) l) = fnat (count_occ fdec l v).
  Proof.
    intros v l. unfold weight. induction l as [|x l IH]; [reflexivity|]. cbn [map fsum snd fst count_occ]. rewrite IH. destruct (fdec x v); cbn [fnat]; ring.
  Qed.
  Lemma weight_app : forall v W W', weight v (W ++ W') = weight v W + weight v W'.
  Proof. intros. unfold weight. now rewrite map_app, fsum_app. Qed.
  Lemma values_length : forall u (inputs : list (nat -> K)), length (values_of u inputs) = (length inputs * u)%nat.
  Proof. intros u inputs. unfold values_of. induction inputs as [|f r IH]; [reflexivity|]. cbn [flat_map length]. rewrite app_length, map_length, seq_length, IH. lia. Qed.

  Theorem log_deriv_sound : forall n u inputs table m B, (0 < u < n)%nat -> NoDup B -> (2 * u * (length inputs + 1) <= length B)%nat ->
    (forall beta, In beta B -> log_deriv_accepts n u inputs table m beta) ->
    forall v, fnat (count_occ fdec (values_of u inputs) v) = fsum (map (fun k => if fdec (table k) v then m k else 0) (seq 0 u)).
  Proof.
    intros n u inputs table m B Hu NB HL HA v. set (W := weighted_values u inputs table m). set (D := nodup fdec (map snd W)).
    assert (HD : forall p, In p W -> In (snd p) D) by (intros p Hp; apply nodup_In; now apply in_map).
    assert (LD : (length D <= u * (length inputs + 1))%nat).
    { unfold D. transitivity (length (map snd W)).
      - apply NoDup_incl_length; [apply NoDup_nodup|]. intros x Hx. now apply nodup_In in Hx.
      - rewrite map_length. unfold W, weighted_values. rewrite app_length, !map_length, seq_length, values_length. nia. }
    assert (WE : weight v W = fnat (count_occ fdec (values_of u inputs) v) - fsum (map (fun k => if fdec (table k) v then m k else 0) (seq 0 u))).
    { unfold W, weighted_values. rewrite weight_app, weight_inputs. unfold weight. rewrite map_map. cbn [fst snd].
      transitivity (fnat (count_occ fdec (values_of u inputs) v) + - (1) * fsum (map (fun k => if fdec (table k) v then m k else 0) (seq 0 u))); [|ring]. f_equal. rewrite <- fsum_map_mul. apply fsum_map_ext. intros k _. destruct (fdec (table k) v); ring. }
    apply fsub_eq0. rewrite <- WE. destruct (in_dec fdec v D) as [Hv|Hv].
    - apply (fractions D (fun x => weight x W) B (NoDup_nodup _ _) NB ltac:(nia)); [|exact Hv]. intros b Hb Hne. rewrite <- (regroup W D (fun x => finv (x + b)) (NoDup_nodup _ _) HD).
      apply (accepted_sum n u inputs table m b Hu (HA b Hb)). intros p Hp. apply Hne. now apply HD.
    - unfold weight. apply fsum_map_zero. intros p Hp. destruct (fdec (snd p) v) as [E|E]; [|reflexivity]. exfalso. apply Hv. rewrite <- E. now apply HD.
  Qed.
  Theorem log_deriv_lookup : forall n u (inputs : list (nat -> K)) table m B, (0 < u < n)%nat -> NoDup B -> (2 * u * (length inputs + 1) <= length B)%nat ->
    (forall beta, In beta B -> log_deriv_accepts n u inputs table m beta) ->
    (forall c, (0 < c <= u * length inputs)%nat -> fnat c <> (0 : K)) ->
    forall f j, In f inputs -> (j < u)%nat -> exists i, (i < u)%nat /\ f j = table i.
  Proof.
    intros n u inputs table m B Hu NB HL HA Hc f j Hf Hj. pose proof (log_deriv_sound n u inputs table m B Hu NB HL HA (f j)) as E.
    assert (Hin : In (f j) (values_of u inputs)) by (apply values_in; exists f, j; auto). apply (count_occ_In fdec) in Hin.
    destruct (Exists_dec (fun i => f j = table i) (seq 0 u) (fun i => fdec (f j) (table i))) as [X|X].
    - apply Exists_exists in X. destruct X as (i & Hi & Ei). apply in_seq in Hi. exists i. split; [lia|exact Ei].
    - exfalso. apply (Hc (count_occ fdec (values_of u inputs) (f j))).
      + split; [lia|]. pose proof (count_occ_bound fdec (f j) (values_of u inputs)) as CB. rewrite values_length in CB. lia.
      + rewrite E. apply fsum_map_zero. intros k Hk. destruct (fdec (table k) (f j)) as [Ek|Ek]; [|reflexivity]. exfalso. apply X. apply Exists_exists. exists k. split; [exact Hk|now symmetry].
  Qed.

  (** ** The shuffle. *)
  Theorem shuffle_sound : forall n u (a s : nat -> K) G, (0 < u < n)%nat -> NoDup G -> (3 * u < length G)%nat -> (forall gamma, In gamma G -> shuffle_accepts n u a s gamma) ->
    Permutation (map a (seq 0 u)) (map s (seq 0 u)).
  Proof.
    intros n u a s G Hu NG HL HA. set (bad := map fopp (map a (seq 0 u)) ++ map fopp (map s (seq 0 u))).
    assert (Lb : length bad = (2 * u)%nat) by (unfold bad; rewrite app_length, !map_length, seq_length; lia).
    apply (shifted_unique K _ _ 1 1 (without fdec G bad)).
    - now rewrite !map_length.
    - now apply NoDup_filter.
    - rewrite map_length, seq_length. pose proof (without_length fdec G bad NG). lia.
    - apply f1_neq_0.
    - intros g Hg. apply without_in in Hg. destruct Hg as [Hg Nb]. destruct (HA g Hg) as (z & Hz).
      assert (Na : ~ In g (map fopp (map a (seq 0 u)))) by (intros X; apply Nb; apply in_app_iff; now left). assert (Ns : ~ In g (map fopp (map s (seq 0 u)))) by (intros X; apply Nb; apply in_app_iff; now right).
      assert (Z0 : z 0%nat = 1).
      { specialize (Hz 0%nat ltac:(lia)). unfold shuffle_verifier_terms in Hz. injection Hz as H1 _ _. unfold first_row in H1. cbn [Nat.eqb] in H1. symmetry. apply fsub_eq0. rewrite <- H1. ring. }
      assert (Zu : z u * z u = z u).
      { specialize (Hz u ltac:(lia)). unfold shuffle_verifier_terms in Hz. injection Hz as _ H1 _. unfold last_row in H1. rewrite Nat.eqb_refl in H1. apply fsub_eq0. rewrite <- H1. ring. }
      assert (St : forall j, (j < u)%nat -> z (S j) * (s j + g) = z j * (a j + g)).
      { intros j Hj. specialize (Hz j ltac:(lia)). unfold shuffle_verifier_terms in Hz. injection Hz as _ _ H1. rewrite flags_one in H1 by exact Hj. rewrite next_row_lt in H1 by lia. replace (S j) with (j + 1)%nat by lia. now apply fsub_eq0. }
      apply (telescope K z (fun j => a j + g) (fun j => s j + g)) in St. rewrite Z0 in St.
      pose proof (shifted_ne K _ _ Na) as NA. unfold shifted in *. rewrite !map_map in *.
      set (PA := fprod (map (fun x => a x + g) (seq 0 u))) in *. set (PS := fprod (map (fun x => s x + g) (seq 0 u))) in *.
      assert (Nz : z u <> 0) by (intros E; rewrite E in St; apply NA; transitivity (1 * PA); [ring|]; rewrite <- St; ring).
      assert (E1 : z u = 1) by (apply (fmul_cancel_l K (z u)); [exact Nz|]; rewrite Zu; ring). rewrite E1 in St. now symmetry.
  Qed.

  (** ** Compression by powers of a challenge. *)
  Lemma horner_eval : forall (l : list K) x a, fold_left (fun acc v => acc * x + v) l a = a * x ^ length l + eval (rev l) x.
  Proof.
    intros l x. induction l as [|v l IH] using rev_ind; intros a; [cbn [fold_left rev length fpow]; rewrite eval_nil; ring|]. rewrite fold_left_app. cbn [fold_left]. rewrite IH. rewrite rev_app_distr. cbn [rev app]. rewrite eval_cons, app_length. cbn [length].
    replace (length l + 1)%nat with (S (length l)) by lia. cbn [fpow]. ring.
  Qed.
  Lemma compress_eval : forall (l : list K) x, compress x l = eval (rev l) x.
  Proof.
    intros [|a l] x; [symmetry; apply eval_nil|]. unfold compress. transitivity (fold_left (fun acc v => acc * x + v) (a :: l) 0).
    - cbn [fold_left]. f_equal. ring.
    - rewrite horner_eval. ring.
  Qed.
  Theorem compress_same : forall (l : list K) x, compress_verifier x l = compress x l.
  Proof. intros l x. unfold compress_verifier. rewrite horner_eval, compress_eval. ring. Qed.
  Lemma compress_few : forall (l r : list K) T, length l = length r -> NoDup T -> (length l <= length T)%nat -> (forall x, In x T -> compress x l = compress x r) -> l = r.
  Proof.
    intros l r T L N HL H. rewrite <- (rev_involutive l), <- (rev_involutive r). f_equal.
    set (d := map (fun i => coeff (rev l) i - coeff (rev r) i) (seq 0 (length l))).
    assert (Hd : forall i, coeff d i = 1 * coeff (rev l) i + - (1) * coeff (rev r) i).
    { intros i. unfold d. rewrite coeff_map_seq. destruct (Nat.ltb_spec i (length l)); [ring|]. rewrite !coeff_over by (rewrite rev_length; lia). ring. }
    assert (Z : forall i, coeff d i = 0).
    { apply (roots_bound K T); [exact N|unfold d; rewrite map_length, seq_length; lia|]. intros x Hx. rewrite (eval_linear K _ _ _ _ _ x Hd). rewrite <- !compress_eval, (H x Hx). ring. }
    apply (nth_ext _ _ 0 0); [rewrite !rev_length; exact L|]. intros i _. apply fsub_eq0. change (coeff (rev l) i - coeff (rev r) i = 0). rewrite <- (Z i), Hd. ring.
  Qed.
  Theorem compressed_lookup : forall w (A S : list (list K)) T, (forall x, In x (A ++ S) -> length x = w) -> NoDup T -> (length S * (w - 1) < length T)%nat ->
    (forall theta, In theta T -> incl (map (compress theta) A) (map (compress theta) S)) -> incl A S.
  Proof.
    intros w A S T HW N HL H a Ha. destruct (heavy (fun s theta => eqd fdec (compress theta a) (compress theta s)) S (w - 1) T HL) as (s & Hs & Hk).
    - intros theta Ht. assert (Hin : In (compress theta a) (map (compress theta) S)) by (apply (H theta Ht); now apply in_map). apply in_map_iff in Hin. destruct Hin as (s & E & Hs). exists s. split; [exact Hs|]. apply eqd_true. now symmetry.
    - replace a with s; [exact Hs|]. symmetry. apply (compress_few a s (filter (fun theta => eqd fdec (compress theta a) (compress theta s)) T)).
      + rewrite !HW; auto; apply in_app_iff; auto.
      + now apply NoDup_filter.
      + rewrite HW by (apply in_app_iff; now left). lia.
      + intros x Hx. apply filter_In in Hx. destruct Hx as [_ Hx]. now apply eqd_true in Hx.
  Qed.
  Theorem compressed_shuffle : forall w (A S : list (list K)) T, (forall x, In x (A ++ S) -> length x = w) -> NoDup T -> (length A * length S * (w - 1) < length T)%nat ->
    (forall theta, In theta T -> Permutation (map (compress theta) A) (map (compress theta) S)) -> Permutation A S.
  Proof.
    intros w A S T HW N HL H. set (P := fun (p : list K * list K) theta => if list_eq_dec fdec (fst p) (snd p) then false else eqd fdec (compress theta (fst p)) (compress theta (snd p))).
    destruct (Exists_dec (fun theta => Forall (fun p => P p theta = false) (list_prod A S)) T) as [X|X].
    - intros theta. apply Forall_dec. intros p. destruct (P p theta); [right; discriminate|now left].
    - apply Exists_exists in X. destruct X as (theta & Ht & HF). rewrite Forall_forall in HF. apply (perm_map_inv (compress theta)); [|now apply H].
      intros x y Hx Hy E. specialize (HF (x, y)). rewrite in_prod_iff in HF. specialize (HF (conj Hx Hy)). unfold P in HF. cbn [fst snd] in HF. destruct (list_eq_dec fdec x y) as [e|e]; [exact e|]. apply eqd_true with (dec := fdec) in E. congruence.
    - exfalso. destruct (heavy P (list_prod A S) (w - 1) T) as ([x y] & Hs & Hk).
      + rewrite prod_length. exact HL.
      + intros theta Ht. destruct (Exists_dec (fun p => P p theta = true) (list_prod A S)) as [Y|Y].
        * intros p. destruct (P p theta); [now left|right; discriminate].
        * apply Exists_exists in Y. exact Y.
        * exfalso. apply X. apply Exists_exists. exists theta. split; [exact Ht|]. apply Forall_forall. intros p Hp. destruct (P p theta) eqn:E; [|reflexivity]. exfalso. apply Y. apply Exists_exists. now exists p.
      + apply in_prod_iff in Hs. destruct Hs as [Hx Hy]. unfold P in Hk. cbn [fst snd] in Hk. destruct (list_eq_dec fdec x y) as [e|e].
        * assert (Z : filter (fun _ : K => false) T = []) by (clear; induction T; auto). rewrite Z in Hk. cbn in Hk. lia.
        * apply e. apply (compress_few x y (filter (fun theta => eqd fdec (compress theta x) (compress theta y)) T)).
          -- rewrite !HW; auto; apply in_app_iff; auto.
          -- now apply NoDup_filter.
          -- rewrite HW by (apply in_app_iff; now left). lia.
          -- intros t Ht. apply filter_In in Ht. destruct Ht as [_ Ht]. now apply eqd_true in Ht.
  Qed.
  (** Terms folded with powers of y vanish together. *)
  Theorem accumulate_sound : forall (terms : list K) Y, NoDup Y -> (length terms <= length Y)%nat -> (forall y, In y Y -> accumulate y 0 terms = 0) -> Forall (fun t => t = 0) terms.
  Proof.
    intros terms Y N HL H. assert (E : terms = repeat 0 (length terms)).
    { apply (compress_few _ _ Y); [now rewrite repeat_length|exact N|exact HL|]. intros y Hy. rewrite <- !compress_same. unfold compress_verifier. fold (accumulate y 0 terms). rewrite (H y Hy). symmetry. generalize (length terms). intros k. induction k as [|k IH]; [reflexivity|]. cbn [repeat fold_left]. transitivity (fold_left (fun acc v => acc * y + v) (repeat 0 k) (0 : K)); [f_equal; ring|exact IH]. }
    rewrite E. apply Forall_forall. intros x Hx. now apply repeat_spec in Hx.
  Qed.

  (** ** The shuffle's evaluator. *)
  Theorem shuffle_one : forall (y l_first l_last l_blind a s z z_next gamma acc : K),
    shuffle_evaluate y l_first l_last (1 - (l_last + l_blind)) [((a, s), (z, z_next))] gamma acc = Some (accumulate y acc (shuffle_verifier_terms l_first l_last l_blind z z_next a s gamma)).
  Proof. reflexivity. Qed.
  Theorem shuffle_many : forall y l_first l_last l_active (args : list ((K * K) * (K * K))) gamma acc, (2 <= length args)%nat -> shuffle_evaluate y l_first l_last l_active args gamma acc = None.
  Proof.
    intros y l_first l_last l_active args gamma acc HL. unfold shuffle_evaluate. cbv zeta. set (ev := flat_map _ args). set (co := map snd args).
    assert (Le : length ev = (2 * length args)%nat) by (unfold ev; clear; induction args as [|p args IH]; [reflexivity|]; cbn [flat_map app length]; rewrite IH; lia).
    assert (Lc : length co = length args) by (unfold co; apply map_length).
    assert (G : forall t k acc fuel, (length args - k = t)%nat -> (k < length args)%nat -> (t < fuel)%nat -> shuffle_evaluate_from (2 * k) y l_first l_last l_active ev co acc fuel = None).
    { induction t as [|t IH]; intros k acc0 fuel Et Hk Hf; [lia|]. destruct fuel as [|fuel]; [lia|]. cbn [shuffle_evaluate_from].
      destruct (Nat.ltb_spec (2 * k) (length ev)); [|lia]. destruct (nth_error ev (2 * k)) as [i|]; [|reflexivity]. destruct (nth_error ev (2 * k + 1)) as [v|]; [|reflexivity].
      destruct (nth_error co (2 * k)) as [[z zn]|] eqn:E; [|reflexivity]. assert (E' : nth_error co (2 * k) <> None) by congruence. apply nth_error_Some in E'.
      replace (2 * k + 2)%nat with (2 * (k + 1))%nat by lia. apply IH; lia. }
    apply (G (length args) 0%nat); lia.
  Qed.

  (** ** The shuffle's completeness. *)
  Theorem shuffle_complete : forall n bf rnd from (a s : nat -> K) gamma, (bf + 1 < n)%nat -> let u := (n - (bf + 1))%nat in
    Permutation (map a (seq 0 u)) (map s (seq 0 u)) -> (forall j, (j < u)%nat -> s j + gamma <> 0) ->
    exists z from', shuffle_grand_product n bf rnd from gamma a s = Some (z, from') /\ length z = n /\
      forall j, (j < n)%nat -> shuffle_verifier_terms (first_row j) (last_row u j) (blind_row u j) (cell z j) (cell z (next_row n j)) (a j) (s j) gamma = [0; 0; 0].
  Proof.
    intros n bf rnd from a s gamma Hn u HP Hne.
    destruct (serial_ok K n bf rnd from (fun j => a j + gamma) (fun j => s j + gamma)) as (z & from' & Ez & Lz & Z0 & Zs & Zp); [lia|exact Hne|]. fold u in Zs, Zp.
    exists z, from'. split; [exact Ez|]. split; [exact Lz|].
    assert (Zu : cell z u = 1).
    { specialize (Zp u ltac:(lia)). assert (E : fprod (map (fun j => a j + gamma) (seq 0 u)) = fprod (map (fun j => s j + gamma) (seq 0 u))).
      { rewrite <- (map_map a (fun x => x + gamma)), <- (map_map s (fun x => x + gamma)). apply fprod_perm. now apply Permutation_map. }
      rewrite E in Zp. set (P := fprod _) in *. assert (NP : P <> 0) by (unfold P; apply fprod_neq0; intros x Hx; apply in_map_iff in Hx; destruct Hx as (j & <- & Hj); apply in_seq in Hj; apply Hne; lia).
      apply (fmul_cancel_l K P); [exact NP|]. transitivity (cell z u * P); [ring|]. rewrite Zp. ring. }
    intros j Hj. unfold shuffle_verifier_terms. apply three.
    - unfold first_row. destruct (Nat.eqb_spec j 0) as [->|C]; [|ring]. rewrite Z0. ring.
    - unfold last_row. destruct (Nat.eqb_spec j u) as [->|C]; [|ring]. rewrite Zu. ring.
    - destruct (Nat.lt_ge_cases j u) as [C|C]; [|now apply flags_zero]. rewrite flags_one by exact C. rewrite next_row_lt by (subst u; lia). replace (j + 1)%nat with (S j) by lia. rewrite Zs by exact C. ring.
  Qed.

  (** ** Statements in terms of occurrences. *)
  Lemma occurrences_count : forall (l : list K) v, occurrences l v = count_occ fdec l v.
  Proof.
    intros l v. unfold occurrences. induction l as [|x l IH]; [reflexivity|]. cbn [filter count_occ]. destruct (feqb_spec' K x v), (fdec x v); try contradiction; cbn [length]; rewrite IH; reflexivity.
  Qed.
  Lemma feqb_if : forall {A} (x y : K) (a b : A), (if feqb x y then a else b) = if fdec x y then a else b.
  Proof. intros A x y a b. destruct (feqb_spec' K x y), (fdec x y); try contradiction; reflexivity. Qed.
  Lemma list_sum_filter : forall (l : list K) v, list_sum (map (fun x => if feqb x v then 1 else 0)%nat l) = occurrences l v.
  Proof. intros l v. unfold occurrences. induction l as [|x l IH]; [reflexivity|]. cbn [map list_sum fold_right filter]. change (fold_right Nat.add 0%nat) with list_sum. rewrite IH. now destruct (feqb x v). Qed.

  Theorem multiplicities : forall (big : K -> Z) sort, (forall x y, big x = big y -> x = y) -> sorts_by_key sort -> forall n u (table : nat -> K) visit, (u <= n)%nat ->
    exists m (c : nat -> nat),
      (forall visit', Permutation visit visit' -> compute_m big sort n u table visit' (repeat 0%nat u) = Some (m, repeat 0%nat u)) /\
      length m = n /\ (forall i, (i < n)%nat -> nth_error m i = Some (if (i <? u)%nat then fnat (c i) else 0)) /\
      forall v, (exists i, (i < u)%nat /\ table i = v) -> list_sum (map (fun i => if feqb (table i) v then c i else 0%nat) (seq 0 u)) = occurrences visit v.
  Proof.
    intros big sort Hinj Hsort n u table visit Hn. destruct (compute_m_ok K big Hinj sort Hsort u table n visit) as (m & Em & Hm).
    exists m, (fun i => hits K big sort u table i visit). split; [|split; [|split]].
    - intros visit' HP. destruct (compute_m_ok K big Hinj sort Hsort u table n visit') as (m' & Em' & Hm'). rewrite Em'. f_equal. f_equal. rewrite Hm, Hm'. apply map_ext. intros i. rewrite (hits_perm K big Hinj sort u table i _ _ HP). reflexivity.
    - rewrite Hm, map_length. apply seq_length.
    - intros i Hi. rewrite Hm. rewrite (nth_error_nth' _ 0) by (rewrite map_length, seq_length; lia). f_equal. rewrite nth_tab_from by exact Hi. reflexivity.
    - intros v (i & Hi & Ht). rewrite <- list_sum_filter. rewrite <- (weighted_nat K big Hinj sort Hsort u table (fun x => if feqb x v then 1 else 0)%nat visit).
      + f_equal. apply map_ext. intros k. destruct (feqb (table k) v); lia.
      + intros x _. destruct (feqb_spec' K x v) as [->|C]; [left; now exists i|now right].
  Qed.
  Theorem sound_occurrences : forall n u (inputs : list (nat -> K)) table m B, (0 < u < n)%nat -> NoDup B -> (2 * u * (length inputs + 1) <= length B)%nat ->
    (forall beta, In beta B -> log_deriv_accepts n u inputs table m beta) ->
    (forall v, fnat (occurrences (values_of u inputs) v) = fsum (map (fun k => if feqb (table k) v then m k else 0) (seq 0 u))) /\
    ((forall c, (0 < c <= u * length inputs)%nat -> fnat c <> (0 : K)) -> forall f j, In f inputs -> (j < u)%nat -> exists i, (i < u)%nat /\ f j = table i).
  Proof.
    intros n u inputs table m B Hu NB HL HA. split; [|now apply (log_deriv_lookup n u inputs table m B)]. intros v. rewrite occurrences_count, (log_deriv_sound n u inputs table m B Hu NB HL HA v).
    apply fsum_map_ext. intros k _. symmetry. apply feqb_if.
  Qed.
End Sound.
