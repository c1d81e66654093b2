(** The permutation argument: products over chunks of columns. *)
From Coq Require Import ZArith List Arith Bool Lia Permutation Relations Ring Field Field_theory.
From Verif Require Import Field FFTSpec CycleModel CycleSpec CycleProof CycleExtra CycleLabelModel CycleLabel LookupModel GrandProductModel GrandProductSpec GrandProductProof GrandProductExtra.
Import ListNotations.
Open Scope nat_scope.

Lemma chunk_size_min : forall cols len i, 0 < len -> i < (cols + len - 1) / len -> chunk_size cols len i = Nat.min len (cols - i * len) /\ i * len < cols.
Proof.
  intros cols len i Hl Hi. set (num := (cols + len - 1) / len) in *.
  assert (B : len * num <= cols + len - 1 < len * num + len).
  { pose proof (Nat.div_mod (cols + len - 1) len ltac:(lia)) as E. pose proof (Nat.mod_upper_bound (cols + len - 1) len ltac:(lia)). fold num in E. lia. }
  assert (Hil : i * len + len <= len * num) by nia.
  split; [|lia]. unfold chunk_size. fold num. destruct (Nat.ltb_spec i (num - 1)) as [H|H].
  - assert (i * len + len + len <= len * num) by nia. lia.
  - replace i with (num - 1) by lia. assert (E : (num - 1) * len = len * num - len) by nia. rewrite E. lia.
Qed.
Lemma firstn_skipn_map : forall {A} (l : list A) d len off, firstn len (skipn off l) = map (fun c => nth (off + c) l d) (seq 0 (Nat.min len (length l - off))).
Proof.
  intros A l d len off. revert l. induction off as [|off IH]; intros l.
  - cbn [skipn Nat.add]. rewrite Nat.sub_0_r. revert len. induction l as [|x l IH]; intros len; [destruct len; reflexivity|]. destruct len as [|len]; [reflexivity|]. cbn [firstn length Nat.min seq map nth]. f_equal. rewrite <- seq_shift, map_map. apply IH.
  - destruct l as [|x l]; [cbn [skipn length]; rewrite Nat.min_0_r; destruct len; reflexivity|]. cbn [skipn length Nat.sub]. rewrite IH. apply map_ext. intros c. reflexivity.
Qed.

Lemma gen_fold : forall (A : Type) (f : nat -> option A) n a l, fold_right (fun i acc => match f i, acc with Some c, Some r => Some (c :: r) | _, _ => None end) (Some []) (seq a n) = Some l ->
  length l = n /\ forall i, i < n -> nth_error l i = f (a + i).
Proof.
  intros A f n. induction n as [|n IH]; intros a l H; cbn [seq fold_right] in H; [injection H as <-; split; [reflexivity|intros; lia]|].
  destruct (f a) as [x|] eqn:Ex; [|discriminate]. destruct (fold_right _ _ (seq (S a) n)) as [r|] eqn:Er in H; [|discriminate]. injection H as <-. apply IH in Er. destruct Er as [L G].
  split; [cbn; now rewrite L|]. intros [|i] Hi; cbn [nth_error]; [now rewrite Nat.add_0_r|]. rewrite G by lia. f_equal. lia.
Qed.
Lemma generate_length : forall (A : Type) (t : list (list A)) st cols rows perms, generate_permutations t st cols rows = Some perms -> length perms = cols.
Proof. intros A t st cols rows perms H. unfold generate_permutations in H. now apply gen_fold in H. Qed.
Lemma generate_entry : forall (A : Type) (t : list (list A)) st cols rows perms, generate_permutations t st cols rows = Some perms ->
  forall a b, in_grid cols rows a -> get_next_label st a = Some b -> tget perms a = tget t b.
Proof.
  intros A t st cols rows perms H [i j] b [Hi Hj] Eb. cbn [fst snd] in *. unfold generate_permutations in H. apply gen_fold in H. destruct H as [L G]. specialize (G i Hi). cbn [Nat.add] in G.
  unfold tget at 1. cbn [fst snd]. destruct (nth_error perms i) as [col|] eqn:Ec; [|apply nth_error_None in Ec; lia]. symmetry in G.
  set (f := fun j => match get_next_label st (i, j) with Some l => tget t l | None => None end).
  assert (Ef : fold_right (fun i acc => match f i, acc with Some c, Some r => Some (c :: r) | _, _ => None end) (Some []) (seq 0 rows) = Some col).
  { rewrite <- G. unfold f. clear. induction (seq 0 rows) as [|j js IH]; [reflexivity|]. cbn [fold_right]. rewrite IH. destruct (get_next_label st (i, j)) as [l|]; [|reflexivity]. destruct (tget t l); [reflexivity|]. match goal with |- _ = match ?X with _ => _ end => now destruct X end. }
  apply gen_fold in Ef. destruct Ef as [_ Gf]. rewrite Gf by exact Hj. cbn [Nat.add]. unfold f. now rewrite Eb.
Qed.
Lemma nth_error_combine' : forall {A B} (l : list A) (l' : list B) i x y, nth_error (combine l l') i = Some (x, y) -> nth_error l i = Some x /\ nth_error l' i = Some y.
Proof. intros A B l. induction l as [|a l IH]; intros [|b l'] [|i] x y H; cbn in *; try discriminate; [injection H as <- <-; auto|now apply IH]. Qed.
Lemma NoDup_map_in : forall {A B} (f : A -> B) l, (forall a b, In a l -> In b l -> f a = f b -> a = b) -> NoDup l -> NoDup (map f l).
Proof.
  intros A B f l H N. induction N as [|x l Hx N IH]; [constructor|]. cbn [map]. constructor.
  - intros Hin. apply in_map_iff in Hin. destruct Hin as (y & E & Hy). apply Hx. rewrite (H x y); [exact Hy|now left|now right|now symmetry].
  - apply IH. intros a b Ha Hb. apply H; now right.
Qed.

Section Perm.
  Variable K : fld.
  Add Field Kgpp : (fld_theory K).
  Open Scope fld_scope.

  Lemma fprod_map_1 : forall {A} (l : list A), fprod (map (fun _ => 1 : K) l) = 1.
  Proof. intros A l. induction l as [|x l IH]; cbn [map fprod]; [reflexivity|]. rewrite IH. ring. Qed.
  Lemma fprod_swap : forall {A B} (f : A -> B -> K) (la : list A) (lb : list B),
    fprod (map (fun b => fprod (map (fun a => f a b) la)) lb) = fprod (map (fun a => fprod (map (f a) lb)) la).
  Proof.
    intros A B f la lb. induction la as [|a la IH]; cbn [map fprod]; [apply fprod_map_1|]. rewrite <- IH. now rewrite (fprod_map_mul' K).
  Qed.
  Lemma fprod_concat_map : forall {A} (f : A -> K) (g : nat -> list A) (l : list nat), fprod (map f (concat (map g l))) = fprod (map (fun c => fprod (map f (g c))) l).
  Proof. intros A f g l. induction l as [|x l IH]; cbn [map concat fprod]; [reflexivity|]. now rewrite map_app, fprod_app, IH. Qed.
  Lemma map_seq_off : forall {A} (f : nat -> A) off m, map (fun c => f (off + c)%nat) (seq 0 m) = map f (seq off m).
  Proof.
    intros A f off m. assert (E : forall a, map (fun c => f (off + c)%nat) (seq a m) = map f (seq (off + a) m)).
    { induction m as [|m IH]; intros a; [reflexivity|]. cbn [seq map]. f_equal. rewrite <- Nat.add_succ_r. apply IH. }
    rewrite (E 0%nat). now rewrite Nat.add_0_r.
  Qed.

  Section Chunks.
    Variable threads : Z.
    Variable n bf cols len : nat.
    Variable rnd : nat -> K.
    Variable beta gamma : K.
    Variable values unpermuted permuted : list (list K).
    Let u := (n - (bf + 1))%nat.
    Let num := Nat.div (cols + len - 1) len.
    Let N c j := cell2 values c j + beta * cell2 unpermuted c j + gamma.
    Let D c j := cell2 values c j + beta * cell2 permuted c j + gamma.

    Definition chunk_steps (z : list K) (i : nat) : Prop :=
      forall j, (j < u)%nat -> cell z (S j) * fprod (map (fun c => D (i * len + c) j) (seq 0 (chunk_size cols len i))) = cell z j * fprod (map (fun c => N (i * len + c) j) (seq 0 (chunk_size cols len i))).

    Lemma products_ok : (0 < threads)%Z -> (2 * Z.of_nat n + threads < 2 ^ 64)%Z -> (bf + 1 <= n)%nat -> (0 < len)%nat ->
      (forall c j, (c < cols)%nat -> (j < u)%nat -> D c j <> 0) ->
      forall todo i from lz, (i + todo = num)%nat ->
      exists zs last, permutation_products threads n bf rnd beta gamma values unpermuted permuted cols len todo i from lz = Some (zs, last) /\ length zs = todo /\
        (forall k, (k < todo)%nat -> length (nth k zs []) = n /\ chunk_steps (nth k zs []) (i + k) /\ cell (nth k zs []) 0 = match k with O => lz | S k' => cell (nth k' zs []) u end) /\
        last = match todo with O => lz | S t => cell (nth t zs []) u end /\
        last * fprod (map (fun c => fprod (map (D c) (seq 0 u))) (seq (i * len) (cols - i * len))) = lz * fprod (map (fun c => fprod (map (N c) (seq 0 u))) (seq (i * len) (cols - i * len))).
    Proof.
      intros Ht Hb Hn Hl HD. induction todo as [|todo IH]; intros i from lz Hi; cbn [permutation_products].
      - exists [], lz. split; [reflexivity|]. split; [reflexivity|]. split; [intros k Hk; lia|]. split; [reflexivity|].
        assert (E : (cols - i * len = 0)%nat).
        { replace i with num by lia. pose proof (Nat.div_mod (cols + len - 1) len ltac:(lia)) as E. pose proof (Nat.mod_upper_bound (cols + len - 1) len ltac:(lia)). fold num in E. lia. }
        rewrite E. reflexivity.
      - destruct (chunk_size_min cols len i Hl ltac:(unfold num in Hi; lia)) as [Es Ho].
        destruct (excessive_ok K threads n bf rnd from (fun c j => N (i * len + c) j) (fun c j => D (i * len + c) j) (chunk_size cols len i) lz Ht Hb Hn) as (z & last1 & from1 & E & Lz & Z0 & Zu & Zs & Zp).
        { fold u. intros c j Hc Hj. apply HD; [lia|exact Hj]. }
        fold u in Zu, Zs, Zp. unfold N, D in E. rewrite E.
        destruct (IH (S i) (S from1) last1 ltac:(lia)) as (zs & last & E2 & L2 & H2 & Hl2 & P2). rewrite E2. exists (z :: zs), last. split; [reflexivity|]. split; [cbn; lia|]. split; [|split].
        + intros k Hk. destruct k as [|k]; cbn [nth].
          * rewrite Nat.add_0_r. split; [exact Lz|]. split; [exact Zs|exact Z0].
          * destruct (H2 k ltac:(lia)) as (A & B & C). rewrite Nat.add_succ_r. split; [exact A|]. split; [exact B|]. rewrite C. destruct k; [now symmetry|reflexivity].
        + rewrite Hl2. destruct todo; cbn [nth]; [now symmetry|reflexivity].
        + set (m := chunk_size cols len i) in *. assert (Sp : seq (i * len) (cols - i * len) = seq (i * len) m ++ seq (S i * len) (cols - S i * len)).
          { replace (cols - i * len)%nat with (m + (cols - S i * len))%nat by lia. rewrite seq_app. f_equal. destruct (Nat.le_gt_cases (cols - i * len) len) as [H|H]; [replace (cols - S i * len)%nat with 0%nat by lia; reflexivity|f_equal; lia]. }
          rewrite Sp, !map_app, !fprod_app.
          rewrite (fprod_swap (fun c j => D (i * len + c) j)), (fprod_swap (fun c j => N (i * len + c) j)) in Zp. rewrite (map_seq_off (fun c => fprod (map (D c) (seq 0 u)))), (map_seq_off (fun c => fprod (map (N c) (seq 0 u)))) in Zp.
          set (A := fprod (map _ (seq (i * len) m))) in *. set (B := fprod (map _ (seq (i * len) m))) in *.
          transitivity (A * (last * fprod (map (fun c => fprod (map (D c) (seq 0 u))) (seq (S i * len) (cols - S i * len))))); [ring|]. rewrite P2.
          transitivity ((last1 * A) * fprod (map (fun c => fprod (map (N c) (seq 0 u))) (seq (S i * len) (cols - S i * len)))); [ring|]. rewrite Zp. ring.
    Qed.
  End Chunks.

  (** What one chunk contributes to the verifier's expressions. *)
  Lemma chunk_of_row : forall (t : list (list K)) len i j, chunk_of (map (fun col => cell col j) t) len i = map (fun c => cell2 t (i * len + c) j) (seq 0 (Nat.min len (length t - i * len))).
  Proof.
    intros t len i j. unfold chunk_of. rewrite (firstn_skipn_map _ 0), map_length. apply map_ext. intros c. unfold cell2.
    assert (E : (0 : K) = cell [] j) by (unfold cell; now destruct j). rewrite E at 1. now rewrite (map_nth (fun col => cell col j)).
  Qed.
  Lemma chunk_expression_eq : forall (delta x beta gamma : K) len i z zn (f s : nat -> K) m,
    chunk_expression delta x beta gamma len i z zn (map f (seq 0 m)) (map s (seq 0 m)) =
    zn * fprod (map (fun c => f c + beta * s c + gamma) (seq 0 m)) - z * fprod (map (fun c => f c + beta * (delta ^ (i * len + c) * x) + gamma) (seq 0 m)).
  Proof.
    intros delta x beta gamma len i z zn f s m. unfold chunk_expression.
    assert (E1 : forall a acc, fold_left (fun acc p => acc * (fst p + beta * snd p + gamma)) (combine (map f (seq a m)) (map s (seq a m))) acc = acc * fprod (map (fun c => f c + beta * s c + gamma) (seq a m))).
    { induction m as [|m IH]; intros a acc; cbn [seq map combine fold_left fprod fst snd]; [ring|]. rewrite IH. ring. }
    rewrite E1.
    assert (E2 : forall m a acc, exists d, fold_left (fun (st : K * K) v => let (acc, d) := st in (acc * (v + d + gamma), d * delta)) (map f (seq a m)) (acc, beta * x * delta ^ (i * len + a)) =
             (acc * fprod (map (fun c => f c + beta * (delta ^ (i * len + c) * x) + gamma) (seq a m)), d)).
    { clear. induction m as [|m IH]; intros a acc; cbn [seq map fold_left fprod]; [eexists; f_equal; ring|].
      replace (beta * x * delta ^ (i * len + a) * delta) with (beta * x * delta ^ (i * len + S a)) by (rewrite Nat.add_succ_r; cbn [fpow]; ring).
      destruct (IH (S a) (acc * (f a + beta * x * delta ^ (i * len + a) + gamma))) as (d & ->). exists d. f_equal. ring. }
    destruct (E2 m 0%nat z) as (d & E). rewrite Nat.add_0_r in E. rewrite E. reflexivity.
  Qed.

  (** The cells of the usable rows are permuted among themselves. *)
  Lemma connected_rows : forall u pairs a b, Forall (fun p : label * label => (snd (fst p) < u)%nat /\ (snd (snd p) < u)%nat) pairs -> connected pairs a b -> ((snd a < u)%nat <-> (snd b < u)%nat).
  Proof.
    intros u pairs a b HF H. unfold connected in H. induction H as [a b H|a|a b H IH|a b c H1 IH1 H2 IH2]; try tauto.
    rewrite Forall_forall in HF. specialize (HF _ H). cbn [fst snd] in HF. tauto.
  Qed.
  Lemma all_cells_prod : forall (f : nat -> nat -> K) cols u, fprod (map (fun p : nat * nat => f (fst p) (snd p)) (all_cells cols u)) = fprod (map (fun c => fprod (map (f c) (seq 0 u))) (seq 0 cols)).
  Proof.
    intros f cols u. unfold all_cells. induction (seq 0 cols) as [|c l IH]; [reflexivity|]. change (list_prod (c :: l) (seq 0 u)) with (map (fun y => (c, y)) (seq 0 u) ++ list_prod l (seq 0 u)). cbn [map fprod]. rewrite map_app, fprod_app, IH, map_map. reflexivity.
  Qed.
  Lemma tget_cell2 : forall (t : list (list K)) c r x, tget t (c, r) = Some x -> cell2 t c r = x.
  Proof.
    intros t c r x H. unfold tget in H. cbn [fst snd] in H. unfold cell2. destruct (nth_error t c) as [col|] eqn:E; [|discriminate]. rewrite (nth_error_nth t c [] E). now apply nth_error_nth.
  Qed.

  Lemma flags_zero : forall u j (x : K), (u <= j)%nat -> (1 - (last_row u j + blind_row u j)) * x = 0.
  Proof. intros u j x H. unfold last_row, blind_row. destruct (Nat.eqb_spec j u), (Nat.ltb_spec u j); try lia; ring. Qed.
  Lemma flags_one : forall u j (x : K), (j < u)%nat -> (1 - (last_row u j + blind_row u j)) * x = x.
  Proof. intros u j x H. unfold last_row, blind_row. destruct (Nat.eqb_spec j u), (Nat.ltb_spec u j); try lia; ring. Qed.


  Lemma row_nth : forall (t : list (list K)) i q, nth i (map (fun col => cell col q) t) 0 = cell (nth i t []) q.
  Proof. intros t i q. assert (E0 : (0 : K) = cell [] q) by (unfold cell; now destruct q). rewrite E0 at 1. apply (map_nth (fun col => cell col q)). Qed.

  Theorem permutation_complete (g omega : K) T s k cols bf len pairs threads rnd beta gamma (values : list (list K)) :
    let n := (2 ^ k)%nat in let u := (n - (bf + 1))%nat in
    Nat.Odd T -> (k <= s)%nat -> primitive_root g (T * 2 ^ s) -> primitive_root omega n -> (0 < cols <= T)%nat ->
    (bf + 1 < n)%nat -> (0 < len)%nat -> (0 < threads)%Z -> (2 * Z.of_nat n + threads < 2 ^ 64)%Z ->
    Forall (fun p => in_grid cols u (fst p) /\ in_grid cols u (snd p)) pairs ->
    length values = cols -> Forall (fun col => length col = n) values ->
    (forall a b, In (a, b) pairs -> tget values a = tget values b) ->
    let delta := get_delta g s in
    (forall c j, (c < cols)%nat -> (j < u)%nat -> cell2 values c j + beta * (delta ^ c * omega ^ j) + gamma <> 0) ->
    exists xs st perms zs,
      merge_all (create cols n) pairs = Some (xs, st) /\
      generate_permutations (unpermuted_table delta omega cols n) st cols n = Some perms /\
      create_permutation_products threads n bf rnd beta gamma values (unpermuted_table delta omega cols n) perms cols len = Some (zs, 1) /\
      length zs = Nat.div (cols + len - 1) len /\ Forall (fun z => length z = n) zs /\
      forall j, (j < n)%nat ->
        Forall (fun e => e = 0)
          (permutation_verifier_evals (first_row j) (last_row u j) (blind_row u j) delta (omega ^ j) beta gamma len
             (row_of zs j) (row_of zs (next_row n j)) (row_of zs ((j + u) mod n)) (row_of values j) (row_of perms j)).
  Proof.
    intros n u Od Hk Hg Ho Hc Hn Hl Ht Hb HF Lv HFv Hcopy delta Hne.
    assert (HF' : Forall (fun p => in_grid cols n (fst p) /\ in_grid cols n (snd p)) pairs).
    { eapply Forall_impl; [|exact HF]. intros [[c r] [c' r']] [[A B] [C D]]. cbn in *. repeat split; cbn; subst u; lia. }
    destruct (permutation_columns K g omega T s k cols pairs Od Hk Hg Ho Hc HF') as (xs & st & perms & E1 & E2 & Dist & Ent & Inj & _).
    fold delta in E2, Dist, Ent. fold n in E1, E2, Dist, Ent, Inj.
    destruct (cycle_store_correct cols n pairs HF') as (xs' & st' & E1' & _ & _ & Tot & NInj & Re & _). rewrite E1 in E1'. injection E1' as <- <-.
    set (unp := unpermuted_table delta omega cols n) in *.
    assert (Unp : forall c j, (c < cols)%nat -> (j < n)%nat -> cell2 unp c j = delta ^ c * omega ^ j) by (intros c j H1 H2; apply tget_cell2, table_get; assumption).
    (* next cell of each cell *)
    assert (Nx : forall a, in_grid cols n a -> exists b, in_grid cols n b /\ cell2 perms (fst a) (snd a) = delta ^ fst b * omega ^ snd b /\ connected pairs a b).
    { intros [c r] Ga. destruct (Ent (c, r) Ga) as (b & Gb & Eb & Cb). exists b. split; [exact Gb|]. split; [cbn [fst snd]; now apply tget_cell2|exact Cb]. }
    assert (Val : forall a b, connected pairs a b -> cell2 values (fst a) (snd a) = cell2 values (fst b) (snd b)).
    { intros a b H. assert (Ev : tget values a = tget values b) by (unfold connected in H; induction H; auto; congruence). unfold tget in Ev.
      destruct (in_dec (fun x y => label_dec x y) a []) as [[]|_].
      unfold cell2. destruct (nth_error values (fst a)) as [ca|] eqn:Ea, (nth_error values (fst b)) as [cb|] eqn:Eb.
      - rewrite (nth_error_nth _ _ [] Ea), (nth_error_nth _ _ [] Eb). rewrite <- !(nth_default_eq). unfold nth_default. now rewrite Ev.
      - rewrite (nth_error_nth _ _ [] Ea). apply nth_error_None in Eb. rewrite (nth_overflow values) by exact Eb. rewrite <- (nth_default_eq). unfold nth_default. rewrite Ev. now destruct (snd b).
      - rewrite (nth_error_nth _ _ [] Eb). apply nth_error_None in Ea. rewrite (nth_overflow values) by exact Ea. rewrite <- (nth_default_eq _ cb). unfold nth_default. rewrite <- Ev. now destruct (snd a).
      - apply nth_error_None in Ea, Eb. rewrite !(nth_overflow values) by assumption. now destruct (snd a), (snd b). }
    assert (HFu : Forall (fun p : label * label => (snd (fst p) < u)%nat /\ (snd (snd p) < u)%nat) pairs) by (eapply Forall_impl; [|exact HF]; intros p [[_ A] [_ B]]; auto).
    set (N := fun c j => cell2 values c j + beta * cell2 unp c j + gamma). set (D := fun c j => cell2 values c j + beta * cell2 perms c j + gamma).
    assert (DN : forall a, in_grid cols u a -> exists b, in_grid cols u b /\ get_next_label st a = Some b /\ D (fst a) (snd a) = N (fst b) (snd b)).
    { intros [c r] [H1 H2]. cbn [fst snd] in *. assert (Ga : in_grid cols n (c, r)) by (split; cbn; subst u; lia). destruct (Tot (c, r) Ga) as (b & Eb & Gb).
      assert (Cb : connected pairs (c, r) b) by (apply Re; auto; econstructor; [exact Eb|constructor]).
      destruct (Nx (c, r) Ga) as (b' & Gb' & Pb' & Cb'). cbn [fst snd] in Pb'.
      assert (Ebb : b' = b).
      { (* the entry is the label of the next cell *)
        pose proof (generate_entry K unp st cols n perms E2 (c, r) b Ga Eb) as Eg. destruct b as [c2 r2], b' as [c3 r3]. pose proof Gb as [Hc2 Hr2]. pose proof Gb' as [Hc3 Hr3]. cbn [fst snd] in *.
        assert (Ev : delta ^ c3 * omega ^ r3 = delta ^ c2 * omega ^ r2).
        { rewrite <- Pb'. unfold unp in Eg. rewrite (table_get K delta omega cols n c2 r2 Hc2 Hr2) in Eg. now apply tget_cell2. }
        apply Dist; assumption. }
      subst b'. exists b. assert (Rb : (snd b < u)%nat) by (apply (connected_rows u pairs (c, r) b HFu Cb); exact H2). destruct b as [c2 r2]. pose proof Gb as [Hc2 Hr2]. cbn [fst snd] in *.
      split; [split; assumption|]. split; [exact Eb|]. unfold D, N. rewrite (Unp c2 r2) by assumption. rewrite Pb'. pose proof (Val (c, r) (c2, r2) Cb) as Ev2. cbn [fst snd] in Ev2. rewrite Ev2. reflexivity. }
    assert (HD : forall c j, (c < cols)%nat -> (j < u)%nat -> D c j <> 0).
    { intros c j H1 H2. destruct (DN (c, j)) as ([c2 r2] & [H3 H4] & _ & E); [split; assumption|]. cbn [fst snd] in *. rewrite E. unfold N. rewrite Unp by (subst u; lia). now apply Hne. }
    assert (PN : fprod (map (fun c => fprod (map (D c) (seq 0 u))) (seq 0 cols)) = fprod (map (fun c => fprod (map (N c) (seq 0 u))) (seq 0 cols))).
    { rewrite <- !all_cells_prod. set (nx := fun a => match get_next_label st a with Some b => b | None => a end).
      assert (Enx : map (fun p : nat * nat => D (fst p) (snd p)) (all_cells cols u) = map (fun p : nat * nat => N (fst p) (snd p)) (map nx (all_cells cols u))).
      { rewrite map_map. apply map_ext_in. intros a Ha. apply (all_cells_in cols u) in Ha. destruct (DN a Ha) as (b & _ & Eb & Ed). unfold nx. now rewrite Eb. }
      rewrite Enx. apply fprod_perm, Permutation_map. apply NoDup_Permutation_bis.
      - apply (NoDup_map_in nx); [|apply all_cells_nodup]. intros a b Ha Hb' Eab. apply (all_cells_in cols u) in Ha, Hb'. destruct (DN a Ha) as (a2 & _ & Ea & _). destruct (DN b Hb') as (b2 & _ & Ebb & _).
        unfold nx in Eab. rewrite Ea, Ebb in Eab. subst b2. apply (NInj a b a2); auto; [destruct Ha; split; cbn in *; subst u; lia|destruct Hb'; split; cbn in *; subst u; lia].
      - rewrite map_length. reflexivity.
      - intros b Hb'. apply in_map_iff in Hb'. destruct Hb' as (a & <- & Ha). apply (all_cells_in cols u) in Ha. destruct (DN a Ha) as (b2 & Gb2 & Eb & _). unfold nx. rewrite Eb. now apply (all_cells_in cols u). }
    destruct (products_ok threads n bf cols len rnd beta gamma values unp perms Ht Hb ltac:(lia) Hl HD (Nat.div (cols + len - 1) len) 0 0 1 eq_refl) as (zs & last & Ez & Lz & Hz & Hlast & P).
    cbn [Nat.mul] in P. rewrite Nat.sub_0_r in P. fold u in P. fold N D in P.
    assert (last1 : last = 1).
    { change (fun c => fprod (map (fun j => D c j) (seq 0 u))) with (fun c => fprod (map (D c) (seq 0 u))) in P.
      assert (NP : fprod (map (fun c => fprod (map (D c) (seq 0 u))) (seq 0 cols)) <> 0).
      { apply fprod_neq0. intros x Hx. apply in_map_iff in Hx. destruct Hx as (c & <- & Hc'). apply in_seq in Hc'. apply fprod_neq0. intros x Hx. apply in_map_iff in Hx. destruct Hx as (j & <- & Hj). apply in_seq in Hj. apply HD; lia. }
      assert (P' : last * fprod (map (fun c => fprod (map (D c) (seq 0 u))) (seq 0 cols)) = 1 * fprod (map (fun c => fprod (map (D c) (seq 0 u))) (seq 0 cols))) by (rewrite PN at 2; exact P).
      set (Q := fprod (map (fun c => fprod (map (D c) (seq 0 u))) (seq 0 cols))) in *. transitivity (last * Q / Q); [field; exact NP|]. rewrite P'. field. exact NP. }
    subst last. set (num := Nat.div (cols + len - 1) len) in *. rewrite last1 in *.
    exists xs, st, perms, zs. split; [exact E1|]. split; [exact E2|]. split; [exact Ez|]. split; [exact Lz|]. split.
    { apply Forall_forall. intros z Hin. apply (In_nth _ _ []) in Hin. destruct Hin as (i & Hi & <-). apply Hz. lia. }
    assert (Hnum : (0 < num)%nat) by (unfold num; apply Nat.div_str_pos; lia).
    assert (Lp : length perms = cols) by exact (generate_length K unp st cols n perms E2).
    intros j Hj. unfold permutation_verifier_evals.
    destruct zs as [|z0 zr] eqn:Ezs; [cbn in Lz; lia|]. rewrite <- Ezs in *. unfold row_of at 1. rewrite Ezs. cbn [map]. fold (row_of zr j). change (cell z0 j :: row_of zr j) with (row_of (z0 :: zr) j). rewrite <- Ezs.
    assert (Z0 : cell z0 0 = 1) by (destruct (Hz 0%nat Hnum) as (_ & _ & H); rewrite Ezs in H; exact H).
    apply Forall_app. split; [|apply Forall_app; split].
    - constructor; [|constructor; [|constructor]].
      + unfold first_row. destruct (Nat.eqb_spec j 0) as [->|]; [rewrite Z0|]; ring.
      + unfold last_row. destruct (Nat.eqb_spec j u) as [->|]; [|ring].
        assert (El : List.last (row_of zs u) 0 = 1).
        { assert (Lr : length (row_of zs u) = num) by (unfold row_of; now rewrite map_length).
          rewrite <- last1. destruct num as [|t]; [lia|]. assert (Ex : row_of zs u = removelast (row_of zs u) ++ [List.last (row_of zs u) 0]) by (apply app_removelast_last; intros Hx; rewrite Hx in Lr; discriminate).
          assert (Ne : nth t (row_of zs u) 0 = List.last (row_of zs u) 0).
          { rewrite Ex at 1. rewrite app_nth2; rewrite length_removelast, Lr; [|lia]. replace (t - (S t - 1))%nat with 0%nat by lia. reflexivity. }
          rewrite <- Ne. unfold row_of. assert (E0 : (0 : K) = cell [] u) by (unfold cell; now destruct u). rewrite E0 at 1. rewrite (map_nth (fun col => cell col u)). reflexivity. }
        rewrite El. ring.
    - apply Forall_forall. intros e He. apply in_map_iff in He. destruct He as ([x y] & <- & Hin). cbn [fst snd]. unfold first_row. destruct (Nat.eqb_spec j 0) as [->|]; [|ring].
      apply (In_nth _ _ (0, 0)) in Hin. destruct Hin as (i & Hi & Ei). rewrite combine_length in Hi. rewrite Nat.add_0_l in Ei.
      assert (Hi1 : (i < length zr)%nat) by (unfold row_of in Hi; rewrite !map_length in Hi; lia).
      assert (Lzs : length zs = S (length zr)) by (rewrite Ezs; reflexivity).
      assert (En : nth i (combine (row_of zr 0) (row_of zs (u mod n))) (0, 0) = (nth i (row_of zr 0) 0, nth i (row_of zs (u mod n)) 0)).
      { destruct (nth_error (combine (row_of zr 0) (row_of zs (u mod n))) i) as [[p q]|] eqn:Eq.
        - rewrite (nth_error_nth _ _ _ Eq). apply nth_error_combine' in Eq. destruct Eq as [Eq1 Eq2]. now rewrite (nth_error_nth _ _ _ Eq1), (nth_error_nth _ _ _ Eq2).
        - exfalso. apply nth_error_None in Eq. rewrite combine_length in Eq. unfold row_of in Eq. rewrite !map_length, Lzs in Eq. clear - Eq Hi1. lia. }
      rewrite En in Ei. injection Ei as <- <-. unfold row_of. rewrite (Nat.mod_small u n) by (subst u; lia).
      rewrite !row_nth. destruct (Hz (S i) ltac:(lia)) as (_ & _ & H). rewrite Ezs in H at 1. cbn [nth] in H. rewrite H. fold u. ring.
    - apply Forall_forall. intros e He. apply in_map_iff in He. destruct He as (i & <- & Hi). apply in_seq in Hi. unfold row_of in Hi. rewrite map_length, Lv in Hi. fold num in Hi.
      destruct (Nat.le_gt_cases u j) as [Huj|Huj]; [now apply flags_zero|]. rewrite flags_one by exact Huj.
      unfold row_of at 3 4. rewrite !chunk_of_row, Lv, Lp. destruct (chunk_size_min cols len i Hl ltac:(fold num; lia)) as [Es Ho2]. rewrite <- Es, chunk_expression_eq.
      destruct (Hz i ltac:(lia)) as (_ & St & _). cbn [Nat.add] in St. specialize (St j Huj). rewrite next_row_lt, Nat.add_1_r by (subst u; lia).
      assert (R : forall q, cell (row_of zs q) i = cell (nth i zs []) q).
      { intros q. unfold cell at 1. unfold row_of. assert (E0 : (0 : K) = cell [] q) by (unfold cell; now destruct q). rewrite E0 at 1. now rewrite (map_nth (fun col => cell col q)). }
      rewrite !R. rewrite St. rewrite (map_ext_in (fun c => cell2 values (i * len + c) j + beta * (delta ^ (i * len + c) * omega ^ j) + gamma) (fun c => N (i * len + c)%nat j)); [unfold N; ring|].
      intros c Hc'. apply in_seq in Hc'. unfold N. rewrite Unp by (subst u; lia). reflexivity.
  Qed.
End Perm.
