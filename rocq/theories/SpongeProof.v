(** Proofs about the sponge model. *)
From Coq Require Import List Arith Bool Lia.
From Verif Require Import SpongeModel SpongeSpec.
Import ListNotations.
Open Scope nat_scope.

Lemma write_total : forall {F} (l : list F) i x, i < length l -> exists l', write l i x = Some l' /\ length l' = length l.
Proof.
  intros F l. induction l as [|a r IH]; intros i x H; [cbn in H; lia|]. destruct i as [|i]; [exists (x :: r); auto|].
  destruct (IH i x) as (l' & E & L); [cbn in H; lia|]. exists (a :: l'). cbn. rewrite E, L. auto.
Qed.

Section Proofs.
  Context {F : Type}.
  Variables (add : F -> F -> F) (perm : list F -> list F) (capacity rate : nat).
  Hypothesis perm_length : forall l, length (perm l) = length l.
  Hypothesis rate_pos : 1 <= rate.

  Lemma lane_general : forall (l : list F) s p x, p < length l -> exists a, nth_error l p = Some a /\
    write l p (add a x) = Some (map (fun q => if fst q =? s + p then add (snd q) x else snd q) (combine (seq s (length l)) l)).
  Proof.
    intros l. induction l as [|b r IH]; intros s p x H; [cbn in H; lia|]. destruct p as [|p].
    - exists b. split; [reflexivity|]. cbn [write length seq combine map fst snd]. rewrite Nat.add_0_r, Nat.eqb_refl. f_equal. f_equal.
      assert (G : forall (r : list F) t, s < t -> map (fun q : nat * F => if fst q =? s then add (snd q) x else snd q) (combine (seq t (length r)) r) = r).
      { clear. induction r as [|c r IH]; intros t Ht; [reflexivity|]. cbn [length seq combine map fst snd]. destruct (Nat.eqb_spec t s); [lia|]. rewrite IH by lia. reflexivity. }
      symmetry. apply G. lia.
    - destruct (IH (S s) p x) as (a & Ea & Ew); [cbn in H; lia|]. exists a. split; [exact Ea|]. cbn [write length seq combine map fst snd]. rewrite Ew.
      destruct (Nat.eqb_spec s (s + S p)); [lia|]. rewrite Nat.add_succ_r. reflexivity.
  Qed.
  Lemma lane : forall (l : list F) p x, p < length l -> exists a, nth_error l p = Some a /\ write l p (add a x) = Some (add_lane add l p x).
  Proof. intros. apply (lane_general l 0). assumption. Qed.
  Lemma add_lane_length : forall l p x, length (add_lane add l p x) = length l.
  Proof. intros. unfold add_lane. rewrite map_length, combine_length, seq_length. lia. Qed.

  Notation one := (absorb_one add perm capacity rate).

  Lemma add_from_spec : forall xs l start, length l = capacity + rate -> start + length xs <= rate ->
    exists l', add_from add l (capacity + start) xs = Some l' /\ length l' = capacity + rate /\
      fold_left one xs (mk_state l (Absorbing start)) = mk_state l' (Absorbing (start + length xs)).
  Proof.
    induction xs as [|x xs IH]; intros l start L H.
    - exists l. cbn. rewrite Nat.add_0_r. auto.
    - cbn [length] in *. cbn [add_from fold_left]. destruct (lane l (capacity + start) x) as (a & Ea & Ew); [lia|]. rewrite Ea, Ew.
      unfold absorb_one at 2. cbn [smode elements]. destruct (Nat.eqb_spec start rate); [lia|].
      destruct (IH (add_lane add l (capacity + start) x) (start + 1)) as (l' & E & L' & Hf); [rewrite add_lane_length; exact L|lia|].
      replace (S (capacity + start)) with (capacity + (start + 1)) by lia. exists l'. rewrite E, Hf. repeat split; auto. do 2 f_equal. lia.
  Qed.

  Lemma restart : forall xs l, xs <> [] -> fold_left one xs (mk_state l (Absorbing rate)) = fold_left one xs (mk_state (perm l) (Absorbing 0)).
  Proof.
    intros [|x xs] l H; [now elim H|]. cbn [fold_left]. f_equal. unfold absorb_one. cbn [smode elements]. rewrite Nat.eqb_refl.
    destruct (Nat.eqb_spec 0 rate); [lia|]. now rewrite Nat.add_0_r.
  Qed.
  Lemma restart_squeezing : forall xs l i, xs <> [] -> fold_left one xs (mk_state l (Squeezing i)) = fold_left one xs (mk_state (perm l) (Absorbing 0)).
  Proof.
    intros [|x xs] l i H; [now elim H|]. cbn [fold_left]. f_equal. unfold absorb_one. cbn [smode elements].
    destruct (Nat.eqb_spec 0 rate); [lia|]. now rewrite Nat.add_0_r.
  Qed.

  Lemma absorb_internal_spec : forall fuel l start elems, length l = capacity + rate -> start < rate -> length elems < fuel ->
    exists s', absorb_internal add perm capacity rate fuel l start elems = Some s' /\ valid capacity rate s' /\
      s' = fold_left one elems (mk_state l (Absorbing start)).
  Proof.
    induction fuel as [|fuel IH]; intros l start elems L Hs Hf; [lia|]. cbn [absorb_internal].
    destruct (Nat.leb_spec (start + length elems) rate) as [Hle|Hgt].
    - destruct (add_from_spec elems l start L Hle) as (l' & E & L' & Hf'). rewrite E. eexists. split; [reflexivity|]. split; [split; [exact L'|exact Hle]|]. now rewrite Hf'.
    - assert (Lk : length (firstn (rate - start) elems) = rate - start) by (apply firstn_length_le; lia).
      destruct (add_from_spec (firstn (rate - start) elems) l start L) as (l' & E & L' & Hf'); [lia|]. rewrite E.
      destruct (IH (perm l') 0 (skipn (rate - start) elems)) as (s' & Es & V & Hv); [rewrite perm_length; exact L'|lia|rewrite skipn_length; lia|].
      exists s'. split; [exact Es|]. split; [exact V|]. rewrite Hv.
      rewrite <- (firstn_skipn (rate - start) elems) at 2. rewrite fold_left_app, Hf', Lk. replace (start + (rate - start)) with rate by lia.
      rewrite restart; [reflexivity|]. intros E0. apply (f_equal (@length F)) in E0. rewrite skipn_length in E0. cbn in E0. lia.
  Qed.

  Lemma absorb_one_valid : forall s x, valid capacity rate s -> valid capacity rate (one s x).
  Proof.
    intros [l [i|i]] x [L H]; cbn in L, H; unfold absorb_one; cbn [smode elements].
    - destruct (Nat.eqb_spec i rate) as [E|E]; split; cbn [smode elements]; rewrite ?add_lane_length, ?perm_length; auto; try lia.
    - split; cbn [smode elements]; rewrite ?add_lane_length, ?perm_length; auto; lia.
  Qed.

  (** Absorbing a non-empty input is absorbing its elements one by one. *)
  Lemma absorb_spec : forall s xs, valid capacity rate s -> xs <> [] ->
    absorb add perm capacity rate s xs = Some (fold_left one xs s) /\ valid capacity rate (fold_left one xs s).
  Proof.
    intros [l m] xs [L H] Hne. cbn in L, H. unfold absorb. cbn [smode elements].
    assert (G : forall l' i, length l' = capacity + rate -> i < rate -> fold_left one xs (mk_state l' (Absorbing i)) = fold_left one xs (mk_state l m) ->
      absorb_internal add perm capacity rate (S (length xs)) l' i xs = Some (fold_left one xs (mk_state l m)) /\ valid capacity rate (fold_left one xs (mk_state l m))).
    { intros l' i L' Hi E. destruct (absorb_internal_spec (S (length xs)) l' i xs L' Hi) as (s' & E' & V & Hv); [lia|]. rewrite E in Hv. subst s'. auto. }
    destruct m as [i|i].
    - destruct (Nat.eqb_spec i rate) as [->|Hi].
      + apply G; [rewrite perm_length; exact L|lia|]. now rewrite restart.
      + apply G; [exact L|lia|reflexivity].
    - apply G; [rewrite perm_length; exact L|lia|]. now rewrite restart_squeezing.
  Qed.

  (** Absorbing nothing still permutes a full or squeezing state. *)
  Definition settle (s : sponge_state F) : sponge_state F :=
    match smode s with
    | Absorbing i => if i =? rate then mk_state (perm (elements s)) (Absorbing 0) else s
    | Squeezing _ => mk_state (perm (elements s)) (Absorbing 0)
    end.
  Lemma absorb_nil : forall s, valid capacity rate s -> absorb add perm capacity rate s [] = Some (settle s) /\ valid capacity rate (settle s).
  Proof.
    intros [l [i|i]] [L H]; cbn in L, H; unfold absorb, settle; cbn [smode elements].
    - destruct (Nat.eqb_spec i rate) as [->|Hi]; cbn [absorb_internal length add_from].
      + destruct (Nat.leb_spec (0 + 0) rate); [|lia]. split; [reflexivity|]. split; cbn; [now rewrite perm_length|lia].
      + destruct (Nat.leb_spec (i + 0) rate); [|lia]. rewrite Nat.add_0_r. split; [reflexivity|]. split; cbn; auto.
    - cbn [absorb_internal length add_from]. destruct (Nat.leb_spec (0 + 0) rate); [|lia]. split; [reflexivity|]. split; cbn; [now rewrite perm_length|lia].
  Qed.
  Lemma fold_settle : forall ys s, ys <> [] -> fold_left one ys (settle s) = fold_left one ys s.
  Proof.
    intros ys [l [i|i]] H; unfold settle; cbn [smode elements].
    - destruct (Nat.eqb_spec i rate) as [->|]; [now rewrite restart|reflexivity].
    - now rewrite restart_squeezing.
  Qed.

  Lemma absorb_split : forall s xs ys, valid capacity rate s -> ys <> [] ->
    exists s' s'', absorb add perm capacity rate s xs = Some s' /\ absorb add perm capacity rate s' ys = Some s'' /\ absorb add perm capacity rate s (xs ++ ys) = Some s''.
  Proof.
    intros s xs ys V Hne. assert (Hne' : xs ++ ys <> []) by (destruct xs; [exact Hne|discriminate]).
    destruct (absorb_spec s (xs ++ ys) V Hne') as [E _]. rewrite fold_left_app in E. destruct xs as [|x xs].
    - destruct (absorb_nil s V) as [E1 V1]. exists (settle s), (fold_left one ys s). split; [exact E1|]. split; [|exact E].
      destruct (absorb_spec (settle s) ys V1 Hne) as [E2 _]. now rewrite E2, fold_settle.
    - destruct (absorb_spec s (x :: xs) V) as [E1 V1]; [discriminate|]. exists (fold_left one (x :: xs) s), (fold_left one ys (fold_left one (x :: xs) s)).
      split; [exact E1|]. split; [|exact E]. now apply absorb_spec.
  Qed.

  (** ** Squeezing *)
  Notation many := (squeeze_many perm capacity rate).

  Lemma read_spec : forall n l start, length l = capacity + rate -> start + n <= rate ->
    exists out, read_from l (capacity + start) n = Some out /\ length out = n /\ many n (mk_state l (Squeezing start)) = Some (out, mk_state l (Squeezing (start + n))).
  Proof.
    induction n as [|n IH]; intros l start L H.
    - exists []. cbn. rewrite Nat.add_0_r. auto.
    - cbn [read_from squeeze_many]. unfold squeeze_one. cbn [smode elements]. destruct (Nat.eqb_spec start rate); [lia|].
      destruct (nth_error l (capacity + start)) as [a|] eqn:E; [|apply nth_error_None in E; lia].
      destruct (IH l (start + 1) L) as (out & E1 & E2 & E3); [lia|]. replace (S (capacity + start)) with (capacity + (start + 1)) by lia.
      rewrite E1, E3. exists (a :: out). cbn. rewrite E2. repeat split. do 4 f_equal. lia.
  Qed.
  Lemma many_app : forall m n s, many (m + n) s = match many m s with
    | Some (a, s1) => match many n s1 with Some (b, s2) => Some (a ++ b, s2) | None => None end | None => None end.
  Proof.
    induction m as [|m IH]; intros n s; [cbn; destruct (many n s) as [[]|]; reflexivity|]. cbn [squeeze_many Nat.add].
    destruct (squeeze_one perm capacity rate s) as [[x|] s']; [|reflexivity]. rewrite IH. destruct (many m s') as [[a s1]|]; [|reflexivity].
    destruct (many n s1) as [[b s2]|]; reflexivity.
  Qed.
  Lemma many_restart : forall n l, 1 <= n -> many n (mk_state l (Squeezing rate)) = many n (mk_state (perm l) (Squeezing 0)).
  Proof.
    intros [|n] l H; [lia|]. cbn [squeeze_many]. unfold squeeze_one. cbn [smode elements]. rewrite Nat.eqb_refl. destruct (Nat.eqb_spec 0 rate); [lia|]. now rewrite Nat.add_0_r.
  Qed.
  Lemma many_restart_absorbing : forall n l i, 1 <= n -> many n (mk_state l (Absorbing i)) = many n (mk_state (perm l) (Squeezing 0)).
  Proof.
    intros [|n] l i H; [lia|]. cbn [squeeze_many]. unfold squeeze_one. cbn [smode elements]. destruct (Nat.eqb_spec 0 rate); [lia|]. now rewrite Nat.add_0_r.
  Qed.

  Lemma squeeze_internal_spec : forall fuel l start n, length l = capacity + rate -> start < rate -> n < fuel -> (n = rate -> start = 0) ->
    exists out s', squeeze_internal perm capacity rate fuel l start n = Some (out, s') /\ length out = n /\ valid capacity rate s' /\
      many n (mk_state l (Squeezing start)) = Some (out, s') /\ (exists j, smode s' = Squeezing j /\ (j = 0 -> n = 0) /\ j mod rate = (start + n) mod rate).
  Proof.
    induction fuel as [|fuel IH]; intros l start n L Hs Hf Hbug; [lia|]. cbn [squeeze_internal].
    destruct (Nat.leb_spec (start + n) rate) as [Hle|Hgt].
    - destruct (read_spec n l start L Hle) as (out & E & Lo & Hm). rewrite E. eexists _, _. split; [reflexivity|]. split; [exact Lo|]. split; [split; auto|]. split; [exact Hm|].
      exists (start + n). cbn. repeat split. lia.
    - destruct (read_spec (rate - start) l start L) as (out & E & Lo & Hm); [lia|]. rewrite E.
      destruct (Nat.eqb_spec n rate) as [En|Hn]; [specialize (Hbug En); lia|].
      destruct (IH (perm l) 0 (n - (rate - start))) as (out' & s' & E' & Lo' & V & Hm' & j & Ej & Hj & Hmod); [rewrite perm_length; exact L|lia|lia|lia|].
      rewrite E'. eexists _, _. split; [reflexivity|]. split; [rewrite app_length; lia|]. split; [exact V|]. split.
      + replace n with ((rate - start) + (n - (rate - start))) at 1 by lia. rewrite many_app, Hm. replace (start + (rate - start)) with rate by lia.
        rewrite many_restart by lia. rewrite Hm'. reflexivity.
      + exists j. split; [exact Ej|]. split; [lia|]. rewrite Hmod. replace (start + n) with (0 + (n - (rate - start)) + 1 * rate) by lia. rewrite Nat.mod_add by lia. reflexivity.
  Qed.

  (** Position in the current block of the next element to be squeezed. *)
  Notation position := (position rate).

  Lemma squeeze_spec : forall s n, valid capacity rate s -> (n = rate -> position s = 0) ->
    exists out s', squeeze perm capacity rate s n = Some (out, s') /\ length out = n /\ valid capacity rate s' /\
      position s' = (position s + n) mod rate /\ (exists j, smode s' = Squeezing j) /\
      (1 <= n -> many n s = Some (out, s')) /\ (forall k, 1 <= k -> many k s' = match many (n + k) s with Some (o, s2) => Some (skipn n o, s2) | None => None end).
  Proof.
    intros [l m] n [L H] Hb. cbn in L, H.
    assert (G : forall l' i, length l' = capacity + rate -> i < rate -> i = position (mk_state l m) ->
      (forall k, 1 <= k -> many k (mk_state l m) = many k (mk_state l' (Squeezing i))) ->
      exists out s', squeeze_internal perm capacity rate (S n) l' i n = Some (out, s') /\ length out = n /\ valid capacity rate s' /\
      position s' = (position (mk_state l m) + n) mod rate /\ (exists j, smode s' = Squeezing j) /\
      (1 <= n -> many n (mk_state l m) = Some (out, s')) /\ (forall k, 1 <= k -> many k s' = match many (n + k) (mk_state l m) with Some (o, s2) => Some (skipn n o, s2) | None => None end)).
    { intros l' i L' Hi Hpos Heq. destruct (squeeze_internal_spec (S n) l' i n L' Hi) as (out & s' & E & Lo & V & Hm & j & Ej & _ & Hmod); [lia|intros E; rewrite Hpos; auto|].
      exists out, s'. split; [exact E|]. split; [exact Lo|]. split; [exact V|]. split; [unfold position at 1; rewrite Ej, Hmod, Hpos; reflexivity|].
      split; [eauto|]. split; [intros Hn; now rewrite Heq|].
      intros k Hk. rewrite Heq by lia. rewrite many_app, Hm. destruct (many k s') as [[b s2]|]; [|reflexivity].
      rewrite skipn_app, Lo, Nat.sub_diag, skipn_all2 by lia. reflexivity. }
    unfold squeeze. cbn [smode elements]. destruct m as [i|i].
    - apply G; [rewrite perm_length; exact L|lia|reflexivity|]. intros k Hk. now apply many_restart_absorbing.
    - unfold position in G, Hb; cbn [smode] in G, Hb. unfold position; cbn [smode]. destruct (Nat.eqb_spec i rate) as [->|Hi].
      + apply G; [rewrite perm_length; exact L|lia|now rewrite Nat.mod_same by lia|]. intros k Hk. now apply many_restart.
      + apply G; [exact L|lia|now rewrite Nat.mod_small by lia|reflexivity].
  Qed.

  Lemma squeeze_split : forall s m n, valid capacity rate s ->
    (m = rate -> position s = 0) -> (n = rate -> (position s + m) mod rate = 0) -> (m + n = rate -> position s = 0) ->
    exists a s1 b s2 s3, squeeze perm capacity rate s m = Some (a, s1) /\ squeeze perm capacity rate s1 n = Some (b, s2) /\
      squeeze perm capacity rate s (m + n) = Some (a ++ b, s3) /\ (1 <= n -> s3 = s2).
  Proof.
    intros s m n V H1 H2 H3. destruct (squeeze_spec s m V H1) as (a & s1 & E1 & La & V1 & P1 & _ & M1 & K1).
    destruct (squeeze_spec s1 n V1) as (b & s2 & E2 & Lb & V2 & P2 & _ & M2 & _); [rewrite P1; exact H2|].
    destruct (squeeze_spec s (m + n) V H3) as (c & s3 & E3 & Lc & V3 & P3 & _ & M3 & _).
    exists a, s1, b, s2, s3. split; [exact E1|]. split; [exact E2|].
    destruct n as [|n].
    - destruct b; [|discriminate]. rewrite app_nil_r. rewrite Nat.add_0_r in *. rewrite E3 in E1. injection E1 as <- <-. split; [exact E3|lia].
    - specialize (M2 (le_n_S _ _ (Nat.le_0_l _))). specialize (K1 (S n) (le_n_S _ _ (Nat.le_0_l _))). rewrite M2 in K1.
      rewrite M3 in K1 by lia. injection K1 as Eb ->. split; [|reflexivity].
      rewrite E3. do 2 f_equal. destruct m as [|m].
      + destruct a; [|discriminate]. now rewrite Eb.
      + specialize (M1 (le_n_S _ _ (Nat.le_0_l _))). assert (M3' : many (S m + S n) s = Some (c, s3)) by (apply M3; lia).
        rewrite many_app, M1, M2 in M3'. injection M3' as <-. reflexivity.
  Qed.
End Proofs.
