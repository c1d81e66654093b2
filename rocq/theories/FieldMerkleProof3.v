(** The complete commit / open / verify round trip. *)
From Coq Require Import List Arith Bool Lia Permutation Sorting.Sorted.
From Verif Require Import FieldMerkleSpec FieldMerkleModel FieldMerkleProof FieldMerkleProof2.
Import ListNotations.
Open Scope nat_scope.

Lemma count_prefix_ext_in : forall {A} (f g : A -> bool) l, (forall a, In a l -> f a = g a) -> count_prefix f l = count_prefix g l.
Proof. intros A f g l H. induction l as [|a r IH]; [reflexivity|]. cbn. rewrite (H a (or_introl eq_refl)), IH; [reflexivity|]. intros x Hx. apply H. now right. Qed.
Lemma combine_seq_nth : forall {A} (l : list A) s i x, In (i, x) (combine (seq s (length l)) l) -> s <= i /\ nth_error l (i - s) = Some x.
Proof.
  intros A l. induction l as [|a r IH]; intros s i x H; [destruct H|]. cbn in H. destruct H as [[= <- <-]|H].
  - rewrite Nat.sub_diag. auto.
  - apply IH in H. destruct H as [H1 H2]. split; [lia|]. replace (i - s) with (S (i - S s)) by lia. exact H2.
Qed.
Lemma combine_map_r : forall {A B C} (g : B -> C) (l : list A) (l' : list B), combine l (map g l') = map (fun p => (fst p, g (snd p))) (combine l l').
Proof. intros A B C g l. induction l as [|a r IH]; intros [|b r']; try reflexivity. cbn. now rewrite IH. Qed.
Lemma combine_snd : forall {A B} (l : list A) (l' : list B), length l = length l' -> map snd (combine l l') = l'.
Proof. intros A B l. induction l as [|a r IH]; intros [|b r'] H; try reflexivity; try discriminate. cbn. rewrite IH; [reflexivity|]. now injection H. Qed.
Lemma list_max_head : forall (x : nat) l, (forall y, In y l -> y <= x) -> In x l -> list_max l = x.
Proof.
  intros x l H I. apply Nat.le_antisymm.
  - apply list_max_le. apply Forall_forall. exact H.
  - assert (G : Forall (fun k => k <= list_max l) l) by (apply list_max_le; lia). rewrite Forall_forall in G. auto.
Qed.

Section Round.
  Context {F P D : Type}.
  Variables (coords : F -> list P) (hash : list P -> D) (compress : D -> D -> D) (zero : D) (digest_eqb : D -> D -> bool).
  Hypothesis eqb_refl : forall d, digest_eqb d d = true.
  Notation matrix := (list (list F)).
  Notation item := (nat * list (list F))%type.

  Lemma first_layer_spec : forall (ms : list matrix) L t i, ms <> [] -> (forall m, In m ms -> length m = L) -> log2_ceiling L = t -> i < L ->
    exists first d, create_first_digest_layer coords hash zero ms = Some first /\ length first = Nat.pow 2 t /\
      row_hash coords hash ms i = Some d /\ nth_error first i = Some d.
  Proof.
    intros ms L t i Hne HL Ht Hi. unfold create_first_digest_layer. destruct ms as [|m r] eqn:Ems; [now elim Hne|]. rewrite <- Ems in *.
    assert (Lm : length m = L) by (apply HL; subst ms; now left). rewrite Lm.
    destruct (map_opt_total (row_hash coords hash ms) (seq 0 L)) as (l & E & LL & N).
    { intros a Ha. apply in_seq in Ha. apply row_hash_total. intros m0 H0. rewrite (HL m0 H0). lia. }
    rewrite E. rewrite seq_length in LL. destruct (row_hash_total coords hash ms i) as [d Hd]; [intros m0 H0; rewrite (HL m0 H0); exact Hi|].
    eexists. exists d. split; [reflexivity|]. rewrite app_length, repeat_length, LL. pose proof (le_bit_ceil L). unfold bit_ceil in *. rewrite Ht in *.
    repeat split; [lia|assumption|]. rewrite nth_error_app1 by lia. rewrite (N i i); [exact Hd|]. now rewrite seq_nth_error.
  Qed.

  Lemma round_trip : forall (leaves : list matrix) (index : nat), acceptable leaves ->
    (forall m row, In m leaves -> addressed_row (list_max (map (@length _) leaves)) (length m) index row -> row < length m) ->
    exists root layers openings proof, mmcs_commit coords hash compress zero leaves = Some (root, layers) /\
      mmcs_open index leaves layers = Some (openings, proof) /\ length openings = length leaves /\
      (forall i m row, nth_error leaves i = Some m -> addressed_row (list_max (map (@length _) leaves)) (length m) index row -> nth_error openings i = nth_error m row) /\
      mmcs_verify coords hash compress digest_eqb root (map (@length _) leaves) index openings proof = Some true.
  Proof.
    intros leaves index (Hne & Hpos & Hcl) Haddr.
    set (items := combine (seq 0 (length leaves)) leaves).
    assert (Hsnd : map snd items = leaves) by (apply combine_snd; apply seq_length).
    set (zs := stable_sort (fun z : item => length (snd z)) items).
    assert (Hperm : Permutation zs items) by apply sort_perm.
    assert (Hdesc : StronglySorted (fun x y : item => length (snd y) <= length (snd x)) zs) by apply (sort_sorted (fun z : item => length (snd z))).
    assert (Hin : forall z, In z zs -> nth_error leaves (fst z) = Some (snd z)).
    { intros [i m] Hz. apply (Permutation_in _ Hperm) in Hz. apply combine_seq_nth in Hz. rewrite Nat.sub_0_r in Hz. apply Hz. }
    assert (Hin' : forall z, In z zs -> In (snd z) leaves) by (intros z Hz; eapply nth_error_In; apply Hin; exact Hz).
    assert (Hsl : stable_sort (fun m : matrix => length m) leaves = map snd zs).
    { rewrite <- Hsnd. now apply sort_map. }
    assert (Hsd : stable_sort snd (combine (seq 0 (length (map (@length _) leaves))) (map (@length _) leaves)) = map dims_of zs).
    { rewrite map_length, combine_map_r. now apply (sort_map dims_of). }
    assert (Hclz : classes zs).
    { intros z z' Hz Hz' E. apply (Hcl (snd z) (snd z') (log2_ceiling (length (snd z)))); auto; [apply is_log_spec|rewrite E; apply is_log_spec]. }
    destruct zs as [|z0 rest] eqn:Ezs.
    { exfalso. apply Permutation_nil in Hperm. rewrite Hperm in Hsnd. now apply Hne. }
    rewrite <- Ezs in *.
    set (M := length (snd z0)).
    assert (Hle : forall z, In z zs -> length (snd z) <= M).
    { intros z Hz. rewrite Ezs in Hz, Hdesc. destruct Hz as [<-|Hz]; [lia|]. apply StronglySorted_inv in Hdesc; destruct Hdesc as [_ FA]. rewrite Forall_forall in FA. now apply FA. }
    assert (Hmax : list_max (map (@length _) leaves) = M).
    { apply list_max_head.
      - intros y Hy. apply in_map_iff in Hy. destruct Hy as (m & <- & Hm). rewrite <- Hsnd in Hm. apply in_map_iff in Hm. destruct Hm as (z & <- & Hz). apply Hle. now apply (Permutation_in _ (Permutation_sym Hperm)).
      - apply in_map. apply Hin'. rewrite Ezs. now left. }
    rewrite Hmax in *. set (t := log2_ceiling M).
    assert (HA : forall z, In z zs -> index / Nat.pow 2 (t - log2_ceiling (length (snd z))) < length (snd z)).
    { intros z Hz. apply (Haddr (snd z)); [auto|]. exists t, (log2_ceiling (length (snd z))). repeat split; try reflexivity; try (apply is_log_spec); apply le_bit_ceil. }
    assert (Hz0 : In z0 zs) by (rewrite Ezs; now left).
    assert (Hi : index < M) by (pose proof (HA z0 Hz0) as H; fold M t in H; rewrite Nat.sub_diag, Nat.pow_0_r, Nat.div_1_r in H; exact H).
    set (f := fun z : item => log2_ceiling (length (snd z)) =? t).
    set (n := count_prefix f zs).
    assert (Hn1 : S (count_prefix (fun m' : matrix => length (snd z0) =? length m') (map snd rest)) = n).
    { subst n. rewrite Ezs. cbn [count_prefix]. unfold f at 1. fold M t. rewrite Nat.eqb_refl. f_equal. rewrite count_prefix_map. apply count_prefix_ext_in.
      intros z Hz. unfold f. fold M. assert (Hz' : In z zs) by (rewrite Ezs; now right). destruct (Nat.eqb_spec (log2_ceiling (length (snd z))) t) as [E2|H2].
      - apply Nat.eqb_eq. apply (Hclz z0 z); auto.
      - apply Nat.eqb_neq. intros E. apply H2. rewrite <- E. reflexivity. }
    assert (Hn2 : count_layers (bit_ceil M) (map dims_of zs) = n).
    { unfold count_layers. rewrite count_prefix_map. apply count_prefix_ext. intros z. rewrite Nat.eqb_sym. apply bit_ceil_eqb. }
    assert (P1 : forall z, In z (firstn n zs) -> In z zs /\ log2_ceiling (length (snd z)) = t).
    { intros z Hz. split; [rewrite <- (firstn_skipn n zs); apply in_or_app; now left|]. apply count_prefix_firstn in Hz. now apply Nat.eqb_eq. }
    assert (P2 : forall z, In z (firstn n zs) -> length (snd z) = M).
    { intros z Hz. destruct (P1 z Hz) as [Hz1 Hz2]. apply Hclz; auto. }
    assert (In2 : forall z, In z (skipn n zs) -> In z zs) by (intros x Hx; rewrite <- (firstn_skipn n zs); apply in_or_app; now right).
    destruct (map_opt_total (fun m : matrix => nth_error m (index / Nat.pow 2 (t - log2_ceiling (length m)))) leaves) as (openings & Eo & Lo & No).
    { intros m Hm. apply nth_error_Some_lt. apply (Haddr m); [auto|]. exists t, (log2_ceiling (length m)). repeat split; try reflexivity; try apply is_log_spec; apply le_bit_ceil. }
    destruct (first_layer_spec (map snd (firstn n zs)) M t index) as (first & d & Ef & Lf & Hd & Nd); auto.
    { rewrite <- Hn1, Ezs. discriminate. }
    { intros m Hm. apply in_map_iff in Hm. destruct Hm as (z & <- & Hz). auto. }
    destruct (loop_spec coords hash compress zero t (length first) first index d openings (skipn n zs)) as (ls & r & sibs & El & E0 & Hls & Er & Es & Ev); auto.
    { rewrite Lf. apply Nat.lt_le_incl, Nat.pow_gt_lin_r. lia. } { now apply desc_skipn. } { intros z z' Hz Hz'. apply Hclz; auto. }
    { intros z Hz. split; [|split].
      - apply (below_after t zs f Hdesc); auto. intros x Hx. apply log_mono. auto.
      - apply (No (fst z)). apply Hin. auto.
      - apply HA. auto. }
    exists r, ls, openings, sibs. split; [|split; [|split; [exact Lo|split]]].
    - unfold mmcs_commit, build. rewrite Hsl. rewrite Ezs at 1. cbn [map]. rewrite Hn1, firstn_map, Ef, skipn_map, El, Er. reflexivity.
    - unfold mmcs_open. assert (max_row_size leaves = M) as -> by exact Hmax. fold t. rewrite Eo. unfold sibling_at in Es. rewrite Es. reflexivity.
    - intros i m row Hi' (e & e' & He & He' & ->). apply is_log_unique in He, He'. subst e e'. now apply No.
    - unfold mmcs_verify. rewrite Hsd. rewrite map_length, Lo, Nat.eqb_refl. cbn [negb]. rewrite Ezs at 1. cbn [map dims_of fst snd]. fold M. rewrite Hn2, firstn_map, skipn_map.
      rewrite (opened_row_values coords openings (firstn n zs) index).
      + unfold row_hash in Hd. destruct (row_values coords (map snd (firstn n zs)) index) as [v|]; [|discriminate]. injection Hd as ->. unfold bit_ceil. fold t. rewrite Ev, eqb_refl. reflexivity.
      + intros z Hz. destruct (P1 z Hz) as [Hz1 Hz2]. rewrite (No (fst z) (snd z)) by auto. rewrite Hz2, Nat.sub_diag, Nat.pow_0_r, Nat.div_1_r. reflexivity.
  Qed.
End Round.
