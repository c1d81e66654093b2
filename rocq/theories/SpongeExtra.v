(** The padding-free sponge, and the counterexamples for the sponges. *)
From Coq Require Import List Arith Bool Lia.
From Verif Require Import SpongeModel SpongeSpec SpongeProof.
Import ListNotations.
Open Scope nat_scope.

Lemma skipn_skipn' : forall {A} (m n : nat) (l : list A), skipn m (skipn n l) = skipn (m + n) l.
Proof.
  intros A m n l. revert m l. induction n as [|n IH]; intros m l; [now rewrite Nat.add_0_r|]. rewrite Nat.add_succ_r. destruct l as [|a l]; [now rewrite !skipn_nil|]. cbn. apply IH.
Qed.

Section Writes.
  Context {F : Type}.
  Lemma write_at : forall (l : list F) i x, i < length l -> write l i x = Some (firstn i l ++ x :: skipn (S i) l).
  Proof.
    induction l as [|a r IH]; intros i x H; [cbn in H; lia|]. destruct i as [|i]; [reflexivity|]. cbn [write firstn skipn app].
    rewrite IH by (cbn in H; lia). reflexivity.
  Qed.
  Lemma write_from_spec : forall xs (l : list F) pos, pos + length xs <= length l ->
    write_from l pos xs = Some (firstn pos l ++ xs ++ skipn (pos + length xs) l).
  Proof.
    induction xs as [|x xs IH]; intros l pos H.
    - cbn. rewrite Nat.add_0_r, firstn_skipn. reflexivity.
    - cbn [write_from length] in *. rewrite write_at by lia.
      assert (L1 : length (firstn pos l) = pos) by (apply firstn_length_le; lia).
      rewrite IH.
      + f_equal. rewrite firstn_app, L1. rewrite firstn_firstn. replace (Nat.min (S pos) pos) with pos by lia. replace (S pos - pos) with 1 by lia. cbn [firstn].
        rewrite <- app_assoc. cbn [app]. do 3 f_equal. rewrite skipn_app, L1. rewrite skipn_all2 by lia.
        replace (S pos + length xs - pos) with (S (length xs)) by lia. change (skipn (S (length xs)) (x :: skipn (S pos) l)) with (skipn (length xs) (skipn (S pos) l)). cbn [app]. rewrite skipn_skipn'. f_equal. lia.
      + rewrite app_length, L1. cbn [length]. rewrite skipn_length. lia.
  Qed.
  Lemma write_block : forall (l b : list F), length b <= length l -> write_from l 0 b = Some (b ++ skipn (length b) l).
  Proof. intros l b H. rewrite write_from_spec by (cbn; lia). reflexivity. Qed.
End Writes.

Section PaddingFree.
  Context {F : Type}.
  Variables (perm : list F -> list F) (rate width : nat).
  Hypothesis F_dec : forall x y : F, {x = y} + {x <> y}.
  Hypothesis perm_length : forall l, length (perm l) = length l.
  Hypothesis perm_inj : forall l l', length l = width -> length l' = width -> perm l = perm l' -> l = l'.
  Hypothesis rate_pos : 1 <= rate.
  Hypothesis rate_le : rate <= width.

  Lemma hash_fuel : forall fuel fuel' l (xs : list F), length xs <= fuel -> length xs <= fuel' -> hash_loop perm rate fuel l xs = hash_loop perm rate fuel' l xs.
  Proof.
    induction fuel as [|fuel IH]; intros fuel' l xs H H'.
    - destruct xs; [destruct fuel'; reflexivity|cbn in H; lia].
    - destruct xs as [|x xs]; [destruct fuel'; reflexivity|]. destruct fuel' as [|fuel']; [cbn in H'; lia|]. cbn [hash_loop].
      destruct (write_from l 0 (firstn rate (x :: xs))); [|reflexivity]. apply IH; rewrite skipn_length; cbn [length] in *; lia.
  Qed.

  Lemma hash_step : forall l (xs : list F), length l = width -> xs <> [] ->
    hash_loop perm rate (length xs) l xs =
    hash_loop perm rate (length (skipn rate xs)) (perm (firstn rate xs ++ skipn (length (firstn rate xs)) l)) (skipn rate xs).
  Proof.
    intros l xs L H. destruct xs as [|x xs]; [now elim H|]. cbn [hash_loop length]. rewrite write_block.
    - apply hash_fuel; [|lia]. rewrite skipn_length. cbn [length]. lia.
    - rewrite L. pose proof (firstn_le_length rate (x :: xs)). rewrite firstn_length. lia.
  Qed.

  Notation state_after := (state_after perm rate).
  Notation inner_collision := (inner_collision perm rate).

  Lemma state_after_S : forall l j xs, length l = width -> xs <> [] ->
    state_after l (S j) xs = state_after (perm (firstn rate xs ++ skipn (length (firstn rate xs)) l)) j (skipn rate xs).
  Proof.
    intros l j xs L H. unfold SpongeSpec.state_after. rewrite hash_step; [|exact L|destruct xs; [now elim H|destruct rate; [lia|discriminate]]].
    cbn [Nat.mul]. rewrite firstn_firstn. replace (Nat.min rate (rate + j * rate)) with rate by lia.
    rewrite skipn_firstn_comm. replace (rate + j * rate - rate) with (j * rate) by lia. reflexivity.
  Qed.

  Lemma hash_binding_general : forall n (xs ys l l' : list F), length xs <= n -> length xs = length ys -> length l = width -> length l' = width ->
    hash_loop perm rate (length xs) l xs = hash_loop perm rate (length ys) l' ys ->
    (xs = ys /\ skipn (Nat.min rate (length xs)) l = skipn (Nat.min rate (length xs)) l') \/
    (exists j s s', 1 <= j /\ j * rate < length xs /\ state_after l j xs = Some s /\ state_after l' j ys = Some s' /\ s <> s' /\
      skipn (Nat.min rate (length xs - j * rate)) s = skipn (Nat.min rate (length xs - j * rate)) s').
  Proof.
    induction n as [|n IH]; intros xs ys l l' Hn Hl L L' H.
    - destruct xs; [|cbn in Hn; lia]. destruct ys; [|discriminate]. left. split; [reflexivity|]. cbn in H |- *. rewrite Nat.min_0_r. cbn. congruence.
    - destruct xs as [|x xs0] eqn:Ex.
      { destruct ys; [|discriminate]. left. split; [reflexivity|]. cbn in H |- *. rewrite Nat.min_0_r. cbn. congruence. }
      rewrite <- Ex in *. assert (Hx : xs <> []) by (subst xs; discriminate). assert (Hy : ys <> []) by (destruct ys; [subst xs; discriminate|discriminate]).
      rewrite (hash_step l xs L Hx), (hash_step l' ys L' Hy) in H.
      set (b := firstn rate xs) in *. set (b' := firstn rate ys) in *.
      assert (Lb : length b = Nat.min rate (length xs)) by apply firstn_length. assert (Lb' : length b' = Nat.min rate (length xs)) by (unfold b'; rewrite firstn_length, Hl; reflexivity).
      assert (Lx1 : 1 <= length xs) by (subst xs; cbn; lia).
      assert (L1 : length (b ++ skipn (length b) l) = width) by (rewrite app_length, skipn_length; lia).
      assert (L1' : length (b' ++ skipn (length b') l') = width) by (rewrite app_length, skipn_length; lia).
      destruct (IH (skipn rate xs) (skipn rate ys) (perm (b ++ skipn (length b) l)) (perm (b' ++ skipn (length b') l'))) as [[E1 E2]|(j & s & s' & J1 & J2 & J3 & J4 & J5 & J6)]; auto.
      { rewrite skipn_length. lia. } { rewrite !skipn_length, Hl. reflexivity. } { now rewrite perm_length. } { now rewrite perm_length. }
      + destruct (list_eq_dec F_dec (perm (b ++ skipn (length b) l)) (perm (b' ++ skipn (length b') l'))) as [EP|NP].
        * apply perm_inj in EP; auto. apply app_eq_app in EP.
          assert (EB : b = b' /\ skipn (length b) l = skipn (length b') l').
          { destruct EP as (z & [[A B]|[A B]]); apply (f_equal (@length F)) in A as A'; rewrite app_length in A';
              (destruct z; [|cbn in A'; lia]); rewrite app_nil_r in A; cbn in B; auto. }
          destruct EB as [EB ES]. left. split; [rewrite <- (firstn_skipn rate xs), <- (firstn_skipn rate ys); fold b b'; congruence|]. rewrite <- Lb at 1. rewrite <- Lb'. exact ES.
        * right. exists 1, (perm (b ++ skipn (length b) l)), (perm (b' ++ skipn (length b') l')).
          assert (Hr : rate < length xs).
          { destruct (le_lt_dec (length xs) rate) as [Hle|]; [|assumption]. exfalso. apply NP. rewrite (skipn_all2 xs) in E2 by exact Hle. cbn [length] in E2. rewrite Nat.min_0_r in E2. exact E2. }
          split; [lia|]. split; [lia|]. rewrite !state_after_S by auto. unfold SpongeSpec.state_after. cbn [Nat.mul firstn length hash_loop]. repeat split; auto.
          replace (length xs - (rate + 0)) with (length xs - rate) by lia. rewrite skipn_length in E2. exact E2.
      + right. exists (S j), s, s'. split; [lia|]. rewrite skipn_length in J2, J6. split; [cbn [Nat.mul]; lia|]. rewrite !state_after_S by auto. repeat split; auto.
        replace (length xs - S j * rate) with (length xs - rate - j * rate) by (cbn [Nat.mul]; lia). exact J6.
  Qed.

  Lemma hash_binding : forall (l0 xs ys : list F), length l0 = width -> length xs = length ys -> xs <> ys ->
    hash_loop perm rate (length xs) l0 xs = hash_loop perm rate (length ys) l0 ys -> inner_collision l0 xs ys.
  Proof.
    intros l0 xs ys L Hl Hne H. destruct (hash_binding_general (length xs) xs ys l0 l0 (le_n _) Hl L L H) as [[E _]|E]; [now elim Hne|exact E].
  Qed.

  Lemma hash_total : forall n (xs l : list F), length xs <= n -> length l = width -> exists l', hash_loop perm rate (length xs) l xs = Some l' /\ length l' = width.
  Proof.
    induction n as [|n IH]; intros xs l H L; (destruct xs as [|x xs0] eqn:Ex; [exists l; auto|]); [cbn in H; lia|]. rewrite <- Ex in *.
    assert (1 <= length xs) by (subst xs; cbn; lia).
    rewrite hash_step by (auto; subst xs; discriminate). apply IH; [rewrite skipn_length; lia|]. rewrite perm_length, app_length, skipn_length, firstn_length. lia.
  Qed.
End PaddingFree.

(** Trailing zeros, within the block, do not change the hash from the zero state. *)
Lemma padding_free_zeros : forall {F : Type} (perm : list F -> list F) (zero a : F) (rate extra out : nat), 2 <= rate ->
  padding_free_hash perm rate (repeat zero (rate + extra)) out [a] = padding_free_hash perm rate (repeat zero (rate + extra)) out [a; zero].
Proof.
  intros F perm zero a rate extra out H. destruct rate as [|[|rate]]; try lia. unfold padding_free_hash. cbn [Nat.add repeat length hash_loop firstn write_from write skipn]. destruct rate; reflexivity.
Qed.

(** Absorbing an empty input into a full block changes what is squeezed: permutation x -> x + 1 on every lane. *)
Definition bump (l : list nat) : list nat := map S l.
Lemma absorb_empty_changes : exists s s1 s2 o1 o2 t1 t2, absorb Nat.add bump 1 2 s [5; 7] = Some s1 /\ absorb Nat.add bump 1 2 s1 [] = Some s2 /\
  squeeze bump 1 2 s1 1 = Some (o1, t1) /\ squeeze bump 1 2 s2 1 = Some (o2, t2) /\ o1 <> o2.
Proof. exists (mk_state [0; 0; 0] (Absorbing 0)). do 6 eexists. repeat split; try reflexivity. discriminate. Qed.

(** Squeezing 1 and then a full block of 2 repeats the first element. *)
Lemma squeeze_repeats : forall {F : Type} (perm : list F -> list F) (l : list F) (c x0 x1 : F), perm l = [c; x0; x1] ->
  let s := mk_state l (Absorbing 0) in
  exists s1 s2, squeeze perm 1 2 s 1 = Some ([x0], s1) /\ squeeze perm 1 2 s1 2 = Some ([x1; x0], s2) /\
    (forall c' y0 y1, perm [c; x0; x1] = [c'; y0; y1] -> exists s3, squeeze perm 1 2 s 3 = Some ([x0; x1; y0], s3)).
Proof.
  intros F perm l c x0 x1 H s. exists (mk_state [c; x0; x1] (Squeezing 1)), (mk_state [c; x0; x1] (Squeezing 1)).
  unfold squeeze, s. cbn [smode elements]. rewrite H. repeat split. intros c' y0 y1 H'. cbn. rewrite H'. cbn. eexists. reflexivity.
Qed.
