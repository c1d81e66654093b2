(** The lookup argument: the prover's columns satisfy the verifier's expressions on the whole domain, and columns that do satisfy them are a lookup. *)
From Coq Require Import ZArith List Arith Bool Lia Permutation Sorted Ring Field Field_theory.
From Verif Require Import Field LookupModel LookupProof GrandProductModel GrandProductSpec GrandProductProof.
Import ListNotations.
Open Scope nat_scope.

Lemma next_row_lt : forall n j, j + 1 < n -> next_row n j = j + 1.
Proof. intros. apply Nat.mod_small. lia. Qed.
Lemma prev_row_pos : forall n j, 0 < j < n -> prev_row n j = j - 1.
Proof. intros n j H. unfold prev_row. replace (j + n - 1) with (j - 1 + 1 * n) by lia. rewrite Nat.mod_add by lia. apply Nat.mod_small. lia. Qed.

Section Lookup.
  Variable K : fld.
  Add Field Kgpe : (fld_theory K).
  Open Scope fld_scope.

  Lemma feqb_spec' : forall x y : K, reflect (x = y) (feqb x y).
  Proof. intros x y. destruct (feqb x y) eqn:E; constructor; [now apply feqb_eq|now apply feqb_neq]. Qed.

  Lemma five : forall a b c d e : K, a = 0 -> b = 0 -> c = 0 -> d = 0 -> e = 0 -> [a; b; c; d; e] = [0; 0; 0; 0; 0].
  Proof. intros. now subst. Qed.
  Lemma cells_map : forall (l : list K) u, (u <= length l)%nat -> map (cell l) (seq 0 u) = firstn u l.
  Proof.
    intros l u. revert l. induction u as [|u IH]; intros l H; [reflexivity|]. destruct l as [|x l]; [cbn in H; lia|]. cbn [seq map firstn]. f_equal. rewrite <- seq_shift, map_map. rewrite <- (IH l) by (cbn in H; lia). reflexivity.
  Qed.
  Lemma cell_app : forall (l r : list K) j, (j < length l)%nat -> cell (l ++ r) j = cell l j.
  Proof. intros l r j H. unfold cell. now apply app_nth1. Qed.
  Lemma cell_nth_error : forall (l : list K) j x, nth_error l j = Some x -> cell l j = x.
  Proof. intros l j x H. unfold cell. now apply nth_error_nth. Qed.

  Variable ltb : K -> K -> bool.
  Hypothesis lt_irr : forall x, ltb x x = false.
  Hypothesis lt_trans : forall x y z, ltb x y = true -> ltb y z = true -> ltb x z = true.
  Hypothesis lt_total : forall x y, ltb x y = false -> ltb y x = false -> x = y.
  Variable sort : list K -> list K.
  Hypothesis sort_perm : forall l, Permutation l (sort l).
  Hypothesis sort_sorted : forall l, StronglySorted (fun x y => ltb y x = false) (sort l).

  Theorem lookup_complete : forall n bf rnd rnd' from input table beta gamma, length input = n -> length table = n -> (bf + 1 < n)%nat ->
    let u := (n - (bf + 1))%nat in
    incl (firstn u input) (firstn u table) ->
    (forall x, In x (firstn u input) -> x + beta <> 0) -> (forall x, In x (firstn u table) -> x + gamma <> 0) ->
    exists a' s' z from',
      permute_expression_pair K feqb ltb 0 sort n bf rnd input table = Some (Some (a', s')) /\
      lookup_grand_product n bf rnd' from beta gamma input table a' s' = Some (z, from') /\
      length a' = n /\ length s' = n /\ length z = n /\
      forall j, (j < n)%nat ->
        lookup_verifier_evals (first_row j) (last_row u j) (blind_row u j) beta gamma (cell z j) (cell z (next_row n j))
          (cell a' j) (cell a' (prev_row n j)) (cell s' j) (cell input j) (cell table j) = [0; 0; 0; 0; 0].
  Proof.
    intros n bf rnd rnd' from input table beta gamma Li Lt Hn u Hincl Hb Hg.
    destruct (permute_pair_ok K feqb ltb feqb_spec' lt_irr lt_trans lt_total 0 sort sort_perm sort_sorted n bf rnd input table Li Lt Hn) as [_ H].
    fold u in H. destruct (H Hincl) as (a & s & E & Pa & Ps & _ & E0 & Hrow). clear H.
    assert (La : length a = u) by (rewrite <- (Permutation_length Pa), firstn_length; subst u; lia). assert (Ls : length s = u) by (rewrite <- (Permutation_length Ps), firstn_length; subst u; lia).
    set (a' := a ++ map rnd (seq 0 (bf + 1))) in *. set (s' := s ++ map rnd (seq (bf + 1) (bf + 1))) in *.
    assert (La' : length a' = n) by (unfold a'; rewrite app_length, map_length, seq_length; subst u; lia).
    assert (Ls' : length s' = n) by (unfold s'; rewrite app_length, map_length, seq_length; subst u; lia).
    assert (Fa : firstn u a' = a) by (unfold a'; rewrite firstn_app, La, Nat.sub_diag, firstn_all2 by lia; apply app_nil_r).
    assert (Fs : firstn u s' = s) by (unfold s'; rewrite firstn_app, Ls, Nat.sub_diag, firstn_all2 by lia; apply app_nil_r).
    assert (In_a : forall j, (j < u)%nat -> In (cell a' j) (firstn u input)).
    { intros j Hj. apply (Permutation_in _ (Permutation_sym Pa)). unfold a'. rewrite cell_app by lia. apply nth_In. lia. }
    assert (In_s : forall j, (j < u)%nat -> In (cell s' j) (firstn u table)).
    { intros j Hj. apply (Permutation_in _ (Permutation_sym Ps)). unfold s'. rewrite cell_app by lia. apply nth_In. lia. }
    destruct (serial_ok K n bf rnd' from (fun j => (cell input j + beta) * (cell table j + gamma)) (fun j => (cell a' j + beta) * (cell s' j + gamma))) as (z & from' & Ez & Lz & Z0 & Zs & Zp); [lia| |].
    { intros j Hj. apply fmul_neq0; auto. }
    fold u in Zs, Zp. exists a', s', z, from'. split; [exact E|]. split; [exact Ez|]. split; [exact La'|]. split; [exact Ls'|]. split; [exact Lz|].
    assert (Zu : cell z u = 1).
    { specialize (Zp u ltac:(lia)). assert (PD : fprod (map (fun j => (cell a' j + beta) * (cell s' j + gamma)) (seq 0 u)) = fprod (map (fun j => (cell input j + beta) * (cell table j + gamma)) (seq 0 u))).
      { rewrite !(fprod_map_mul' K). f_equal.
        - rewrite <- (map_map (cell a') (fun x => x + beta)), <- (map_map (cell input) (fun x => x + beta)), !cells_map by (subst u; lia). rewrite Fa. apply fprod_perm, Permutation_map. now symmetry.
        - rewrite <- (map_map (cell s') (fun x => x + gamma)), <- (map_map (cell table) (fun x => x + gamma)), !cells_map by (subst u; lia). rewrite Fs. apply fprod_perm, Permutation_map. now symmetry. }
      rewrite <- PD in Zp. clear PD. set (P := fprod _) in *. assert (NP : P <> 0).
      { unfold P. apply fprod_neq0. intros x Hx. apply in_map_iff in Hx. destruct Hx as (j & <- & Hj). apply in_seq in Hj. apply fmul_neq0; [apply Hb, In_a; lia|apply Hg, In_s; lia]. }
      transitivity (cell z u * P / P); [field; exact NP|]. rewrite Zp. field. exact NP. }
    assert (Ha0 : forall j, (j < u)%nat -> cell a' j = cell s' j \/ ((0 < j)%nat /\ cell a' j = cell a' (j - 1))).
    { intros j Hj. unfold a', s'. rewrite !cell_app by lia. unfold cell. destruct (Hrow j Hj) as [Hx|[Hp Hx]]; [left|right; split; [exact Hp|]].
      - now rewrite <- (nth_default_eq j a), <- (nth_default_eq j s); unfold nth_default; rewrite Hx.
      - rewrite <- (nth_default_eq j a), <- (nth_default_eq (j - 1) a). unfold nth_default. now rewrite Hx. }
    intros j Hj. unfold lookup_verifier_evals, first_row, last_row, blind_row.
    assert (C : (j < u \/ j = u \/ u < j)%nat) by lia. destruct C as [C|[C|C]].
    - destruct (Nat.eqb_spec j u); [lia|]. destruct (Nat.ltb_spec u j); [lia|]. rewrite next_row_lt by (subst u; lia). rewrite Nat.add_1_r.
      assert (E3 : cell z (S j) * (cell a' j + beta) * (cell s' j + gamma) = cell z j * (cell input j + beta) * (cell table j + gamma)).
      { transitivity (cell z (S j) * ((cell a' j + beta) * (cell s' j + gamma))); [ring|]. rewrite (Zs j C). ring. }
      rewrite E3. destruct (Nat.eqb_spec j 0) as [->|Nj].
      + rewrite Z0. destruct (Ha0 0%nat C) as [Ex|[Ex _]]; [|lia]. rewrite Ex. apply five; ring.
      + rewrite prev_row_pos by lia. destruct (Ha0 j C) as [Ex|[_ Ex]]; rewrite <- Ex; apply five; ring.
    - subst j. rewrite Nat.eqb_refl, Nat.ltb_irrefl, Zu. destruct (Nat.eqb_spec u 0); [subst u; lia|]. apply five; ring.
    - destruct (Nat.eqb_spec j u); [lia|]. destruct (Nat.ltb_spec u j); [|lia]. destruct (Nat.eqb_spec j 0); [lia|]. apply five; ring.
  Qed.

End Lookup.

Section Sound.
  Variable K : fld.
  Add Field Kgps : (fld_theory K).
  Open Scope fld_scope.

  Theorem lookup_sound : forall n u beta gamma (z a' s' a s : nat -> K), (0 < u < n)%nat ->
    (forall j, (j < n)%nat -> lookup_verifier_evals (first_row j) (last_row u j) (blind_row u j) beta gamma (z j) (z (next_row n j)) (a' j) (a' (prev_row n j)) (s' j) (a j) (s j) = [0; 0; 0; 0; 0]) ->
    (forall j, (j < u)%nat -> exists i, (i <= j)%nat /\ a' j = s' i) /\
    ((forall j, (j < u)%nat -> (a j + beta) * (s j + gamma) <> 0) ->
     fprod (map (fun j => (a j + beta) * (s j + gamma)) (seq 0 u)) = fprod (map (fun j => (a' j + beta) * (s' j + gamma)) (seq 0 u))).
  Proof.
    intros n u beta gamma z a' s' a s Hu H. unfold lookup_verifier_evals, first_row, last_row, blind_row in H.
    assert (sub0 : forall x y : K, x - y = 0 -> x = y) by (intros x y E; transitivity (x - y + y); [ring|rewrite E; ring]).
    assert (F0 : 1 - z 0%nat = 0 /\ a' 0%nat - s' 0%nat = 0).
    { specialize (H 0%nat ltac:(lia)). rewrite Nat.eqb_refl in H. injection H as H1 _ _ H4 _. split; [rewrite <- H1|rewrite <- H4]; ring. }
    destruct F0 as [Z0 A0]. apply sub0 in Z0, A0.
    assert (Act : forall j, (j < u)%nat -> z (S j) * ((a' j + beta) * (s' j + gamma)) = z j * ((a j + beta) * (s j + gamma)) /\ ((0 < j)%nat -> a' j = s' j \/ a' j = a' (j - 1)%nat)).
    { intros j Hj. specialize (H j ltac:(lia)). destruct (Nat.eqb_spec j u); [lia|]. destruct (Nat.ltb_spec u j); [lia|]. rewrite next_row_lt, Nat.add_1_r in H by lia. injection H as _ _ H3 _ H5. split.
      - apply sub0. rewrite <- H3. ring.
      - intros Hp. rewrite prev_row_pos in H5 by lia. assert (P : (a' j - s' j) * (a' j - a' (j - 1)%nat) = 0) by (rewrite <- H5; ring). apply fmul_integral in P. destruct P as [P|P]; apply sub0 in P; auto. }
    split.
    - induction j as [|j IH]; intros Hj; [exists 0%nat; split; [lia|exact A0]|]. destruct (proj2 (Act (S j) Hj)) as [E|E]; [lia|exists (S j); split; [lia|exact E]|].
      replace (S j - 1)%nat with j in E by lia. destruct IH as (i & Hi & Ei); [lia|]. exists i. split; [lia|now rewrite E].
    - intros HN. assert (P : forall i, (i <= u)%nat -> z i * fprod (map (fun j => (a' j + beta) * (s' j + gamma)) (seq 0 i)) = fprod (map (fun j => (a j + beta) * (s j + gamma)) (seq 0 i))).
      { induction i as [|i IH]; intros Hi; [cbn; rewrite <- Z0; ring|]. rewrite !(fprod_seq_S K), <- IH by lia. destruct (Act i ltac:(lia)) as [E _].
        transitivity (fprod (map (fun j => (a' j + beta) * (s' j + gamma)) (seq 0 i)) * (z (S i) * ((a' i + beta) * (s' i + gamma)))); [ring|]. rewrite E. ring. }
      specialize (P u ltac:(lia)). assert (NP : fprod (map (fun j => (a j + beta) * (s j + gamma)) (seq 0 u)) <> 0).
      { apply fprod_neq0. intros x Hx. apply in_map_iff in Hx. destruct Hx as (j & <- & Hj). apply in_seq in Hj. apply HN. lia. }
      assert (Zu : z u = 1).
      { specialize (H u ltac:(lia)). rewrite Nat.eqb_refl in H. injection H as _ H2 _ _ _. assert (Q : z u * (z u - 1) = 0) by (rewrite <- H2; ring). apply fmul_integral in Q. destruct Q as [Q|Q]; [|now apply sub0].
        exfalso. apply NP. rewrite <- P, Q. ring. }
      rewrite <- P, Zu. ring.
  Qed.
End Sound.
