(** Assembly of the transform theorems. *)
From Coq Require Import ZArith List Arith Lia Permutation Bool Ring Field Field_theory.
From Verif Require Import Field Zp BitsModel BitsSpec ParallelizeModel PolyModel PolySpec PolyProof PolyProof2 PolyProof3 FFTModel FFTSpec FFTProof FFTProof2 FFTProof3 FFTProof4 FFTProof5.
Import ListNotations.
Open Scope nat_scope.

Section Extra.
  Variable K : fld.
  Add Field Kfe : (fld_theory K).
  Open Scope fld_scope.
  Implicit Types (g h root : K) (d : domain K) (it : item K).

  Lemma log2_up_pow2 k : Nat.log2_up (2 ^ k) = k.
  Proof. apply Nat.log2_up_pow2. lia. Qed.
  Lemma rdom_ok adicity root k h d : (adicity < 62)%nat -> primitive_root root (2 ^ adicity) -> (k <= adicity)%nat ->
    radix2_domain adicity root k h d -> dom_ok K k (generator adicity root k) h d /\ primitive_root (generator adicity root k) (2 ^ k).
  Proof.
    intros Ha HP Hk (d0 & Hd0 & Hd). rewrite create_domain_eq, log2_up_pow2 in Hd0.
    2:{ rewrite pow2_Z. apply Z.pow_le_mono_r; lia. }
    destruct (new_domain_ok K adicity root k ltac:(lia) Hk HP) as (HG & d' & Hd' & HD). rewrite Hd0 in Hd'. injection Hd' as <-.
    split; [|exact HG]. destruct Hd as [[-> ->]|Hd]; [exact HD|].
    assert (Hh : h <> 0). { intros ->. unfold get_coset in Hd. rewrite feqb_refl in Hd. discriminate. }
    destruct (get_coset_ok K k _ _ h d0 ltac:(lia) HD Hh) as (d' & E & H). assert (d' = d) by congruence. subst d'. exact H.
  Qed.
  Lemma complete_iff small po k g it : item_full K small po k g it -> complete_item small po k g it.
  Proof.
    intros H. split.
    - intros Hp s Hs. split; [apply (if_roots _ _ _ _ _ _ H Hp s Hs)|apply (if_inv _ _ _ _ _ _ H Hp s Hs)].
    - intros Hk. split; [apply (if_last _ _ _ _ _ _ H Hk)|]. split; [apply (if_first _ _ _ _ _ _ H Hk)|].
      intros Hs. split; [rewrite (if_rev _ _ _ _ _ _ H Hk Hs)|rewrite (if_rev_inv _ _ _ _ _ _ H Hk Hs)];
        apply tab_ext; intros j Hj; rewrite brev_Z, Nat2Z.id; reflexivity.
  Qed.
  Lemma complete_ok small k g it : complete_item small false k g it -> item_ok K k g it.
  Proof. intros [H _]. specialize (H eq_refl). constructor; intros s Hs; apply (H s Hs). Qed.

  Lemma create_spec adicity root (n : nat) : (adicity < 62)%nat -> primitive_root root (2 ^ adicity) -> (Z.of_nat n <= 2 ^ 63)%Z ->
    match create_domain adicity root n with
    | Some d => exists k, (k <= adicity)%nat /\ d_size d = (2 ^ k)%nat /\ (n <= 2 ^ k)%nat /\ (forall j, (n <= 2 ^ j)%nat -> (k <= j)%nat) /\
                  radix2_domain adicity root k 1 d /\ primitive_root (generator adicity root k) (2 ^ k) /\
                  (forall h, match get_coset d h with Some d' => h <> 0 /\ radix2_domain adicity root k h d' | None => h = 0 end)
    | None => (2 ^ adicity < n)%nat
    end.
  Proof.
    intros Ha HP Hn. rewrite create_domain_eq by auto. set (k := Nat.log2_up n).
    assert (Hmin : forall j, (n <= 2 ^ j)%nat -> (k <= j)%nat). { intros j Hj. unfold k. destruct (Nat.le_gt_cases n 1) as [L|L]; [rewrite Nat.log2_up_eqn0 by auto; lia|]. apply Nat.log2_up_le_pow2; lia. }
    assert (Hle : (n <= 2 ^ k)%nat). { unfold k. destruct (Nat.le_gt_cases n 1) as [L|L]; [rewrite Nat.log2_up_eqn0 by auto; cbn; lia|]. apply Nat.log2_up_le_pow2; lia. }
    assert (Hk64 : (k < 64)%nat). { assert (k <= 63)%nat; [|lia]. apply Hmin. apply Nat2Z.inj_le. rewrite pow2_Z. exact Hn. }
    destruct (Nat.le_gt_cases k adicity) as [L|L].
    - destruct (new_domain_ok K adicity root k ltac:(lia) L HP) as (HG & d & Hd & HD). rewrite Hd. exists k.
      assert (E : create_domain adicity root (2 ^ k) = Some d). { rewrite create_domain_eq, log2_up_pow2; [exact Hd|]. rewrite pow2_Z. apply Z.pow_le_mono_r; lia. }
      split; [auto|]. split; [apply HD|]. split; [auto|]. split; [auto|]. split; [exists d; split; [exact E|left; auto]|]. split; [exact HG|].
      intros h. destruct (get_coset d h) as [d'|] eqn:Ec.
      + split; [intros ->; unfold get_coset in Ec; rewrite feqb_refl in Ec; discriminate|]. exists d. auto.
      + destruct (f_dec K h 0) as [|Hh]; [auto|]. destruct (get_coset_ok K k _ _ h d ltac:(lia) HD Hh) as (d' & X & _). congruence.
    - rewrite new_domain_too_large by auto. destruct (Nat.le_gt_cases n (2 ^ adicity)) as [X|X]; [|exact X]. apply Hmin in X. lia.
  Qed.

  Lemma points_spec adicity root k h d threads : (adicity < 62)%nat -> primitive_root root (2 ^ adicity) -> (k <= adicity)%nat ->
    radix2_domain adicity root k h d -> (0 < threads < 2 ^ 62)%Z ->
    get_elements threads d = Some (map (fun i => h * generator adicity root k ^ i) (seq 0 (2 ^ k))) /\
    forall i : nat, (i < 2 ^ k)%nat -> get_element d (Z.of_nat i) = h * generator adicity root k ^ i.
  Proof.
    intros Ha HP Hk HR Ht. destruct (rdom_ok _ _ _ _ _ Ha HP Hk HR) as [HD HG]. pose proof (pow2_small k ltac:(lia)). split.
    - apply elements_spec; auto; lia.
    - intros i Hi. rewrite (element_spec K d k _ h _ HD) by lia. rewrite Nat2Z.id. reflexivity.
  Qed.

  Lemma fft_correct adicity root k h d small threads sched it (poly : list K) : (adicity < 62)%nat -> primitive_root root (2 ^ adicity) -> (k <= adicity)%nat ->
    radix2_domain adicity root k h d -> (0 < threads < 2 ^ 62)%Z -> schedules sched -> complete_item small false k (generator adicity root k) it ->
    ((length poly <= 2 ^ k)%nat -> poly <> [] -> fft threads sched d it poly = Some (values_on poly h (generator adicity root k) (2 ^ k))) /\
    fft threads sched d it [] = Some [] /\
    ((2 ^ k < length poly)%nat -> (Z.of_nat (length poly) < 2 ^ 62)%Z -> fft threads sched d it poly = None).
  Proof.
    intros Ha HP Hk HR Ht HS HI. destruct (rdom_ok _ _ _ _ _ Ha HP Hk HR) as [HD HG]. apply complete_ok in HI. split; [|split].
    - intros Hl Hne. unfold fft. destruct poly as [|x poly]; [congruence|]. cbn [is_zero]. apply do_fft_spec; auto; cbn [length] in *; lia.
    - reflexivity.
    - intros Hl Hb. unfold fft. destruct poly as [|x poly]; [cbn in Hl; lia|]. cbn [is_zero]. apply (do_fft_too_long K threads sched d it k (generator adicity root k) h); auto.
  Qed.
  Lemma fresh_item adicity root k h d small threads sched po : (adicity < 62)%nat -> primitive_root root (2 ^ adicity) -> (k <= adicity)%nat ->
    radix2_domain adicity root k h d -> (0 < threads < 2 ^ 62)%Z -> schedules sched ->
    exists it, build_item small threads sched d po = Some it /\ complete_item small po k (generator adicity root k) it.
  Proof.
    intros Ha HP Hk HR Ht HS. destruct (rdom_ok _ _ _ _ _ Ha HP Hk HR) as [HD HG].
    destruct (build_item_ok K small threads sched d po k _ h Ht ltac:(lia) HS HD) as (it & E & H). exists it. split; [exact E|]. apply complete_iff. exact H.
  Qed.

  Lemma ifft_correct adicity root k h d small threads sched it (e : list K) : (adicity < 62)%nat -> primitive_root root (2 ^ adicity) -> (k <= adicity)%nat ->
    radix2_domain adicity root k h d -> (0 < threads < 2 ^ 62)%Z -> schedules sched -> complete_item small false k (generator adicity root k) it ->
    length e = (2 ^ k)%nat ->
    exists f, ifft threads sched d it e = Some f /\ canonical f /\ (length f <= 2 ^ k)%nat /\ values_on f h (generator adicity root k) (2 ^ k) = e.
  Proof.
    intros Ha HP Hk HR Ht HS HI He. destruct (rdom_ok _ _ _ _ _ Ha HP Hk HR) as [HD HG]. apply complete_ok in HI.
    pose proof (do_off_nz _ _ _ _ _ HD) as Hh. set (g := generator adicity root k) in *.
    exists (remove_high (tab (inverse_coeff K k g h e) (2 ^ k))). split.
    - unfold ifft. pose proof (pow2_1 k). destruct e as [|x e]; [cbn in He; lia|]. apply do_ifft_spec; auto; lia.
    - split; [apply remove_high_canonical|]. split; [|apply inverse_values; auto].
      eapply Nat.le_trans; [apply remove_high_length|]. rewrite tab_length. lia.
  Qed.
  Lemma fft_ifft adicity root k h d small threads threads' sched sched' it (f e : list K) : (adicity < 62)%nat -> primitive_root root (2 ^ adicity) -> (k <= adicity)%nat ->
    radix2_domain adicity root k h d -> (0 < threads < 2 ^ 62)%Z -> (0 < threads' < 2 ^ 62)%Z -> schedules sched -> schedules sched' ->
    complete_item small false k (generator adicity root k) it ->
    (canonical f -> (length f <= 2 ^ k)%nat -> exists v, fft threads sched d it f = Some v /\ ifft threads' sched' d it v = Some f) /\
    (length e = (2 ^ k)%nat -> exists f', ifft threads sched d it e = Some f' /\
       ((exists x, In x e /\ x <> 0) -> fft threads' sched' d it f' = Some e) /\ ((forall x, In x e -> x = 0) -> f' = [] /\ fft threads' sched' d it f' = Some [])).
  Proof.
    intros Ha HP Hk HR Ht Ht' HS HS' HI. destruct (rdom_ok _ _ _ _ _ Ha HP Hk HR) as [HD HG].
    pose proof (do_off_nz _ _ _ _ _ HD) as Hh. split.
    - intros Hc Hl. destruct f as [|x f]; [exists []; split; reflexivity|].
      destruct (fft_correct _ _ _ _ _ _ _ _ _ (x :: f) Ha HP Hk HR Ht HS HI) as (E & _). specialize (E Hl ltac:(discriminate)). eexists. split; [exact E|].
      pose proof HI as HI'. apply complete_ok in HI'. unfold ifft, values_on. pose proof (pow2_1 k).
      destruct (map _ _) as [|v0 vs] eqn:Ev; [apply (f_equal (@length _)) in Ev; rewrite map_length, seq_length in Ev; cbn in Ev; lia|]. rewrite <- Ev.
      etransitivity; [apply (do_ifft_spec K threads' sched' d it k (generator adicity root k) h); auto; [lia|]; rewrite map_length, seq_length; reflexivity|].
      f_equal. etransitivity; [|apply (values_inverse K k (generator adicity root k) h); auto]. reflexivity.
    - intros He. destruct (ifft_correct _ _ _ _ _ _ _ _ _ e Ha HP Hk HR Ht HS HI He) as (f' & E & Hc & Hl & Hv). exists f'. split; [exact E|].
      destruct (fft_correct _ _ _ _ _ _ _ _ _ f' Ha HP Hk HR Ht' HS' HI) as (E2 & _). split.
      + intros (x & Hx & Hnz). rewrite E2, Hv; auto. intros ->. rewrite <- Hv in Hx. apply in_map_iff in Hx as (i & Hi & _). apply Hnz. rewrite <- Hi. apply eval_nil.
      + intros Hz. assert (f' = []).
        { apply (interpolation_unique K (map (fun i => h * generator adicity root k ^ i) (seq 0 (2 ^ k)))).
          - apply points_nodup; auto.
          - exact Hc.
          - exact (canonical_nil K).
          - rewrite map_length, seq_length. exact Hl.
          - cbn. lia.
          - intros x Hx. rewrite eval_nil. apply Hz. rewrite <- Hv. apply in_map_iff in Hx as (i & <- & Hi). apply in_map_iff. exists i. auto. }
        subst f'. auto.
  Qed.

  (** ** The cache *)
  Lemma key_eqb_eq (a b : nat * K) : key_eqb a b = true <-> a = b.
  Proof.
    unfold key_eqb. rewrite Bool.andb_true_iff, Nat.eqb_eq. destruct a, b; cbn [fst snd]. split.
    - intros [-> H]. apply (proj1 (feqb_eq K _ _)) in H. congruence.
    - intros E. injection E as -> ->. split; [auto|]. apply feqb_refl.
  Qed.
  Lemma cache_find_In (items : cache K) k it : cache_find items k = Some it -> In (k, it) items.
  Proof.
    induction items as [|[k' i] items IH]; cbn [cache_find]; [discriminate|]. destruct (key_eqb k' k) eqn:E.
    - intros X. injection X as <-. apply key_eqb_eq in E. subst. left. auto.
    - intros X. right. auto.
  Qed.
  Definition inv (small : bool) adicity root (po : nat -> Prop) (items : cache K) : Prop :=
    forall s g' it, In ((s, g'), it) items -> exists k p, (k <= adicity)%nat /\ s = (2 ^ k)%nat /\ g' = generator adicity root k /\
      item_full K small p k (generator adicity root k) it /\ (p = true -> po k).
  Lemma get_item_ok small adicity root k h d threads sched junk items po (P : nat -> Prop) : (adicity < 62)%nat -> primitive_root root (2 ^ adicity) -> (k <= adicity)%nat ->
    radix2_domain adicity root k h d -> (0 < threads < 2 ^ 62)%Z -> schedules sched -> inv small adicity root P items ->
    exists items' it, get_item small threads sched junk items d po = Some (items', it) /\
      inv small adicity root (fun k' => P k' \/ (k' = k /\ po = true)) items' /\ 
      (po = true \/ ~ P k -> complete_item small po k (generator adicity root k) it).
  Proof.
    intros Ha HP Hk HR Ht HS HI. destruct (rdom_ok _ _ _ _ _ Ha HP Hk HR) as [HD HG].
    destruct (build_item_ok K small threads sched d po k _ h Ht ltac:(lia) HS HD) as (fr & Ef & Hfr).
    unfold get_item. rewrite Ef. rewrite (do_size _ _ _ _ _ HD), (do_gen _ _ _ _ _ HD). unfold cache_insert.
    destruct (cache_find items (2 ^ k, generator adicity root k)%nat) as [old|] eqn:Eo.
    - assert (HX : exists p, item_full K small p k (generator adicity root k) old /\ (p = true -> P k)).
      { apply cache_find_In in Eo. destruct (HI _ _ _ Eo) as (k' & p & L & E1 & E2 & H & Hp). apply Nat.pow_inj_r in E1; [|lia]. subst k'. exists p. auto. }
      destruct HX as (p & Hold & Hp). exists items, old. split; [destruct (_ && _); reflexivity|]. split.
      + intros s g' it X. destruct (HI _ _ _ X) as (k' & p' & L & E1 & E2 & H & Hp'). exists k', p'. refine (conj L (conj E1 (conj E2 (conj H _)))). intros Y. left. auto.
      + intros [Hpo|Hpo].
        * subst po. destruct p; [apply complete_iff; exact Hold|]. apply complete_iff in Hold as [_ H2]. split; [discriminate|exact H2].
        * destruct p; [exfalso; auto|]. apply complete_iff in Hold as [H1 H2]. split; [intros _; apply H1; reflexivity|exact H2].
    - eexists _, fr. split; [reflexivity|]. split.
      + intros s g' it [X|X].
        * injection X as <- <- <-. exists k, po. refine (conj Hk (conj eq_refl (conj eq_refl (conj Hfr _)))). intros Y. right. auto.
        * destruct (HI _ _ _ X) as (k' & p' & L & E1 & E2 & H & Hp'). exists k', p'. refine (conj L (conj E1 (conj E2 (conj H _)))). intros Y. left. auto.
      + intros _. apply complete_iff. exact Hfr.
  Qed.
  Lemma answers_ok small adicity root threads sched junk (reqs : list (nat * K * domain K * bool)) : (adicity < 62)%nat -> primitive_root root (2 ^ adicity) ->
    (0 < threads < 2 ^ 62)%Z -> schedules sched ->
    Forall (fun r => (fst (fst (fst r)) <= adicity)%nat /\ radix2_domain adicity root (fst (fst (fst r))) (snd (fst (fst r))) (snd (fst r))) reqs ->
    forall (P : nat -> Prop) items, inv small adicity root P items ->
    exists its, answers small threads sched junk items (map (fun r => (snd (fst r), snd r)) reqs) = Some its /\ length its = length reqs /\
    forall i k h d po it, nth_error reqs i = Some (k, h, d, po) -> nth_error its i = Some it ->
      (po = true \/ (~ P k /\ forall j h' d', (j < i)%nat -> nth_error reqs j <> Some (k, h', d', true))) ->
      complete_item small po k (generator adicity root k) it.
  Proof.
    intros Ha HP Ht HS. induction reqs as [|[[[k h] d] po] reqs IH]; intros HF P items HI.
    - exists []. split; [reflexivity|]. split; [reflexivity|]. intros [|i] ? ? ? ? ? X; discriminate.
    - inversion HF as [|? ? [Hk HR] HF']; subst. cbn [fst snd] in *. cbn [map fst snd answers].
      destruct (get_item_ok small adicity root k h d threads sched junk items po P Ha HP Hk HR Ht HS HI) as (items' & it & E & HI' & Hc). rewrite E.
      destruct (IH HF' _ _ HI') as (its & E2 & L & H). exists (it :: its). rewrite E2. split; [reflexivity|]. split; [cbn [length]; lia|].
      intros [|i] k' h' d' po' it' X Y Hor; cbn [nth_error] in X, Y.
      + injection X as <- <- <- <-. injection Y as <-. apply Hc. destruct Hor as [|[Hn _]]; auto.
      + apply (H i k' h' d' po' it' X Y). destruct Hor as [|[Hn Hj]]; [left; auto|right]. split.
        * intros [|[-> ->]]; [auto|]. apply (Hj 0%nat h d ltac:(lia)). reflexivity.
        * intros j h2 d2 Hlt. apply (Hj (S j) h2 d2 ltac:(lia)).
  Qed.
  Lemma cache_histories small adicity root threads sched junk (reqs : list (nat * K * domain K * bool)) : (adicity < 62)%nat -> primitive_root root (2 ^ adicity) ->
    (0 < threads < 2 ^ 62)%Z -> schedules sched ->
    Forall (fun r => (fst (fst (fst r)) <= adicity)%nat /\ radix2_domain adicity root (fst (fst (fst r))) (snd (fst (fst r))) (snd (fst r))) reqs ->
    exists its, answers small threads sched junk [] (map (fun r => (snd (fst r), snd r)) reqs) = Some its /\ length its = length reqs /\
    forall i k h d po it, nth_error reqs i = Some (k, h, d, po) -> nth_error its i = Some it ->
      (po = true \/ forall j h' d', (j < i)%nat -> nth_error reqs j <> Some (k, h', d', true)) ->
      complete_item small po k (generator adicity root k) it.
  Proof.
    intros Ha HP Ht HS HF. destruct (answers_ok small adicity root threads sched junk reqs Ha HP Ht HS HF (fun _ => False) []) as (its & E & L & H).
    { intros ? ? ? []. }
    exists its. split; [exact E|]. split; [exact L|]. intros i k h d po it X Y Hor. apply (H i k h d po it X Y). destruct Hor; auto.
  Qed.

  (** ** A packed-only request followed by a full one *)
  Lemma empty_table sched t fn (l : list K) gap : schedules sched -> (0 < gap)%nat -> (0 < length l)%nat ->
    apply_butterfly sched t fn l [] gap = None.
  Proof.
    intros HS Hg Hl. unfold apply_butterfly. pose proof (HS _ t (layer_ops (length l) (@nil K) gap)) as HP.
    assert (HN : forall op, In op (layer_ops (length l) (@nil K) gap) -> snd op = None).
    { intros op H. unfold layer_ops in H. apply in_flat_map in H as (b & _ & H). apply in_map_iff in H as (j & <- & _). cbn [snd]. destruct j; reflexivity. }
    assert (HL : (0 < length (layer_ops (length l) (@nil K) gap))%nat).
    { unfold layer_ops. assert (1 <= Nat.div (length l + 2 * gap - 1) (2 * gap))%nat by (apply Nat.div_le_lower_bound; lia).
      destruct (Nat.div _ _) as [|B]; [lia|]. cbn [seq flat_map]. rewrite app_length, map_length, seq_length. lia. }
    destruct (sched _ t _) as [|op ops] eqn:Es.
    - apply Permutation_length in HP. cbn in HP. lia.
    - cbn [ofold]. assert (Ho : snd op = None). { apply HN. apply (Permutation_in op (Permutation_sym HP)). left. auto. }
      destruct op as [[lo hi] r]. cbn [snd] in Ho. subst r. unfold bfly. destruct (nth_error l lo), (nth_error l hi); reflexivity.
  Qed.
  Lemma packed_roots small threads sched d k g h it : (2 <= k)%nat -> dom_ok K k g h d ->
    build_item small threads sched d true = Some it -> nth_error (it_roots it) 0 = Some [] /\ nth_error (it_inv it) 1 = Some [].
  Proof.
    intros Hk HD. unfold build_item. rewrite (do_log _ _ _ _ _ HD). destruct k as [|[|k]]; [lia|lia|]. cbn [Nat.eqb]. cbv zeta.
    match goal with |- match ?a with _ => _ end = _ -> _ => destruct a; [|discriminate] end.
    match goal with |- match ?a with _ => _ end = _ -> _ => destruct a; [|discriminate] end.
    match goal with |- match ?a with _ => _ end = _ -> _ => destruct a; [|discriminate] end.
    match goal with |- match ?a with _ => _ end = _ -> _ => destruct a; [|discriminate] end.
    intros E. injection E as <-. cbn [it_roots it_inv]. replace (S (S k) - 1)%nat with (S k) by lia. split; reflexivity.
  Qed.
  Lemma incomplete_fft threads sched d k g h it (l : list K) : (0 < threads < 2 ^ 62)%Z -> (k < 62)%nat -> schedules sched -> dom_ok K k g h d -> (2 <= k)%nat ->
    nth_error (it_roots it) 0 = Some [] -> length l = (2 ^ k)%nat -> fft threads sched d it l = None.
  Proof.
    intros Ht Hk HS HD Hk2 HE Hl. pose proof (pow2_small k Hk) as Hb. pose proof (pow2_1 k) as Hp.
    set (a := fun i => coeff l i * h ^ i).
    assert (Hz : is_zero l = false) by (destruct l; [cbn [length] in Hl; lia|reflexivity]). unfold fft. rewrite Hz. clear Hz. unfold do_fft. rewrite (do_off _ _ _ _ _ HD).
    assert (E1 : (if feqb h 1 then Some l else distribute_powers threads l h) = Some (tab a (2 ^ k))).
    { destruct (feqb h 1) eqn:Eh.
      - apply (proj1 (feqb_eq K _ _)) in Eh. f_equal. transitivity (tab (coeff l) (length l)); [apply (list_coeff K)|]. rewrite Hl. apply tab_ext. intros i _. unfold a. rewrite Eh, fpow_one. ring.
      - unfold distribute_powers. pose proof (distribute_spec K threads h 1 (coeff l) (length l) ltac:(lia) ltac:(lia)) as X.
        rewrite <- (list_coeff K l) in X. rewrite X, Hl. f_equal. apply tab_ext. intros i _. unfold a. ring. }
    rewrite E1. cbv zeta. rewrite tab_length. rewrite safe_log2_pow2 by lia. rewrite (do_log _ _ _ _ _ HD), (do_size _ _ _ _ _ HD).
    rewrite Nat.ltb_irrefl, Nat.sub_diag. change (Nat.leb 4 (2 ^ 0)) with false. cbv iota.
    replace (vec_resize 0 (tab a (2 ^ k)) (2 ^ k)) with (tab a (2 ^ k)).
    2:{ symmetry. pose proof (resize_same 0 (tab a (2 ^ k))) as X. rewrite tab_length in X. exact X. }
    pose proof (swap_bitrev_full sched 0 k a HS ltac:(lia)) as E2. rewrite ?tab_length in E2. rewrite E2.
    unfold out_in_helper. pose proof (safe_log2_pow2 0 ltac:(lia)) as El0. change (2 ^ 0)%nat with 1%nat in El0. rewrite El0.
    cbn [out_in_loop]. rewrite tab_length. assert (2 ^ 2 <= 2 ^ k)%nat by (apply Nat.pow_le_mono_r; lia). cbn [Nat.pow Nat.mul Nat.add] in H.
    replace (Nat.ltb 1 (2 ^ k)) with true by (symmetry; apply Nat.ltb_lt; lia). rewrite HE.
    rewrite empty_table by (rewrite ?tab_length; auto; lia). reflexivity.
  Qed.
  Lemma packed_then_full adicity root k h d small threads sched junk : (adicity < 62)%nat -> primitive_root root (2 ^ adicity) -> (2 <= k <= adicity)%nat ->
    radix2_domain adicity root k h d -> (0 < threads < 2 ^ 62)%Z -> schedules sched ->
    exists it, answers small threads sched junk [] [(d, true); (d, false)] = Some [it; it] /\
      ~ complete_item small false k (generator adicity root k) it /\
      forall (poly : list K), length poly = (2 ^ k)%nat -> fft threads sched d it poly = None.
  Proof.
    intros Ha HP Hk HR Ht HS. destruct (rdom_ok _ _ _ _ _ Ha HP (proj2 Hk) HR) as [HD HG].
    destruct (build_item_ok K small threads sched d true k _ h Ht ltac:(lia) HS HD) as (it & E & H).
    destruct (build_item_ok K small threads sched d false k _ h Ht ltac:(lia) HS HD) as (it2 & E2 & _).
    destruct (packed_roots small threads sched d k _ h it ltac:(lia) HD E) as [HE _].
    exists it. split; [|split].
    - cbn [answers]. unfold get_item at 1. cbn [cache_find]. rewrite E. unfold cache_insert at 1. cbn [cache_find].
      unfold get_item. cbn [cache_find]. rewrite (proj2 (key_eqb_eq _ _) eq_refl). rewrite (if_packed _ _ _ _ _ _ H ltac:(lia)). cbn [andb negb].
      rewrite E2. unfold cache_insert. cbn [cache_find]. rewrite (proj2 (key_eqb_eq _ _) eq_refl). reflexivity.
    - intros [H1 _]. destruct (H1 eq_refl 0%nat ltac:(lia)) as [X _]. rewrite HE in X. discriminate.
    - intros poly Hl. apply (incomplete_fft threads sched d k (generator adicity root k) h); auto; lia.
  Qed.
End Extra.
