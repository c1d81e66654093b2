(** The self-shrinking output and the field elements drawn. *)
From Coq Require Import ZArith List Bool Lia.
From Verif Require Import BigIntModel BigIntSpec BigIntExtra GrainModel GrainSpec GrainProof GrainProof2.
Import ListNotations.
Open Scope nat_scope.

Lemma selected_app b : forall t l1 u l2 w, selected b t l1 u -> selected b u l2 w -> selected b t (l1 ++ l2) w.
Proof.
  intros t l1 u l2 w H. revert l2 w. induction H as [t|t l u B S IH|t l u B N S IH]; intros l2 w H2.
  - exact H2.
  - cbn [app]. apply sel_take; [exact B|]. apply IH, H2.
  - apply sel_skip; [exact B| |apply IH, H2]. destruct l; [contradiction|discriminate].
Qed.

(** The same pairs give the same bits. *)
Lemma selected_unique b : forall t l1 u1, selected b t l1 u1 -> forall l2 u2, selected b t l2 u2 ->
  length l1 = length l2 -> l1 = l2 /\ u1 = u2.
Proof.
  intros t l1 u1 H. induction H as [t|t l u B S IH|t l u B N S IH]; intros l2 u2 H2 L.
  - destruct l2; [|discriminate]. inversion H2; subst; [split; reflexivity|contradiction].
  - inversion H2; subst; try discriminate; try congruence.
    match goal with S2 : selected b (t + 2) _ _ |- _ => idtac end.
    match goal with |- _ :: ?x = _ :: ?y /\ _ => assert (K : x = y /\ u = u2) by (apply IH; [assumption|cbn in L; lia]) end.
    destruct K as [-> ->]. split; reflexivity.
  - inversion H2; subst; try congruence.
    + destruct l; [contradiction|discriminate].
    + apply IH; assumption.
Qed.

Section Stream.
  Variable b : nat -> bool.
  Variable i0 : nat.
  Hypothesis G : grain b.
  Hypothesis NZ : b i0 = true.

  Lemma next_bit_at : forall k fuel t s, k < fuel -> b (t + 80 + 2 * k) = true -> at_pos b t s -> exists x u s',
    next_bit fuel s = Done (x, s') /\ selected b (t + 80) [x] (u + 80) /\ at_pos b u s' /\ g_prime_bits s' = g_prime_bits s.
  Proof.
    induction k as [|k IH]; intros fuel t s F B A; (destruct fuel as [|fuel]; [lia|]); cbn [next_bit];
    destruct (update_ok b t s G A) as [s1 [E1 [A1 P1]]]; rewrite E1; cbn [bind];
    destruct (update_ok b (t + 1) s1 G A1) as [s2 [E2 [A2 P2]]]; replace (t + 1 + 1) with (t + 2) in A2 by lia;
    replace (t + 1 + 80) with (t + 80 + 1) in E2 by lia.
    - replace (t + 80 + 2 * 0) with (t + 80) in B by lia. rewrite B, E2.
      exists (b (t + 80 + 1)), (t + 2), s2. split; [reflexivity|]. split; [|split; [exact A2|congruence]].
      apply sel_take; [exact B|]. replace (t + 2 + 80) with (t + 80 + 2) by lia. apply sel_nil.
    - destruct (b (t + 80)) eqn:B0.
      + rewrite E2. exists (b (t + 80 + 1)), (t + 2), s2. split; [reflexivity|]. split; [|split; [exact A2|congruence]].
        apply sel_take; [exact B0|]. replace (t + 2 + 80) with (t + 80 + 2) by lia. apply sel_nil.
      + rewrite E2. cbn [bind].
        destruct (IH fuel (t + 2) s2 ltac:(lia)) as [x [u [s' [E [S [A' P']]]]]];
          [replace (t + 2 + 80 + 2 * k) with (t + 80 + 2 * S k) by lia; exact B|exact A2|].
        exists x, u, s'. split; [exact E|]. split; [|split; [exact A'|congruence]].
        apply sel_skip; [exact B0|discriminate|]. replace (t + 80 + 2) with (t + 2 + 80) by lia. exact S.
  Qed.
  Lemma next_bit_ok fuel t s : 80 <= fuel -> at_pos b t s -> exists x u s',
    next_bit fuel s = Done (x, s') /\ selected b (t + 80) [x] (u + 80) /\ at_pos b u s' /\ g_prime_bits s' = g_prime_bits s.
  Proof.
    intros F A. destruct (some_pair b i0 (t + 80) G NZ) as [k [K B]].
    apply (next_bit_at k); [lia|exact B|exact A].
  Qed.

  Lemma set_nth_eq : forall (l : list bool) i v, i < length l -> set_nth l i v = Some (firstn i l ++ v :: skipn (S i) l).
  Proof.
    induction l as [|x l IH]; intros i v L; cbn [length] in L; [lia|]. destruct i as [|i]; [reflexivity|].
    cbn [set_nth]. rewrite IH by lia. reflexivity.
  Qed.

  Lemma get_bits_loop_ok fuel : 80 <= fuel -> forall k pre post t s, k <= length post -> at_pos b t s ->
    exists l u s', get_bits_loop fuel k (length pre) (pre ++ post) s = Done (pre ++ l ++ skipn k post, s') /\
    length l = k /\ selected b (t + 80) l (u + 80) /\ at_pos b u s' /\ g_prime_bits s' = g_prime_bits s.
  Proof.
    intro F. induction k as [|k IH]; intros pre post t s K A.
    - exists [], t, s. split; [reflexivity|]. split; [reflexivity|]. split; [apply sel_nil|]. split; [exact A|reflexivity].
    - destruct post as [|y post]; [cbn in K; lia|]. cbn [length] in K.
      destruct (next_bit_ok fuel t s F A) as [x [u [s1 [E [S [A1 P1]]]]]].
      cbn [get_bits_loop]. rewrite E. cbn [bind].
      rewrite set_nth_eq by (rewrite app_length; cbn [length]; lia).
      replace (firstn (length pre) (pre ++ y :: post) ++ x :: skipn (Datatypes.S (length pre)) (pre ++ y :: post))
        with ((pre ++ [x]) ++ post).
      2:{ rewrite firstn_app, firstn_all, Nat.sub_diag. cbn [firstn]. rewrite app_nil_r, <- app_assoc. cbn [app].
          rewrite skipn_app, skipn_all2 by lia. replace (Datatypes.S (length pre) - length pre) with 1 by lia. reflexivity. }
      replace (Datatypes.S (length pre)) with (length (pre ++ [x])) by (rewrite app_length; cbn; lia).
      destruct (IH (pre ++ [x]) post u s1 ltac:(lia) A1) as [l [w [s2 [E2 [L [S2 [A2 P2]]]]]]].
      exists (x :: l), w, s2. rewrite E2. split; [|split; [cbn; lia|split; [|split; [exact A2|congruence]]]].
      + rewrite <- app_assoc. reflexivity.
      + apply (selected_app b _ [x] _ l _ S S2).
  Qed.
  Lemma get_bits_ok fuel m n t s : 80 <= fuel -> n <= m -> at_pos b t s -> exists l u s',
    get_bits fuel m n s = Done (l ++ repeat false (m - n), s') /\
    length l = n /\ selected b (t + 80) l (u + 80) /\ at_pos b u s' /\ g_prime_bits s' = g_prime_bits s.
  Proof.
    intros F N A. unfold get_bits.
    destruct (get_bits_loop_ok fuel F n [] (repeat false m) t s) as [l [u [s' [E [L [S [A' P]]]]]]];
      [rewrite repeat_length; exact N|exact A|].
    exists l, u, s'. cbn [app length] in E. rewrite E. split; [|split; [exact L|split; [exact S|split; [exact A'|exact P]]]].
    f_equal. f_equal. f_equal. clear - N. replace m with (n + (m - n)) at 1 by lia. rewrite repeat_app.
    rewrite skipn_app, repeat_length, Nat.sub_diag. rewrite skipn_all2 by (rewrite repeat_length; lia). reflexivity.
  Qed.
  Lemma get_bits_loop_stop fuel : 80 <= fuel -> forall k i ret t s, i <= length ret -> length ret < i + k -> at_pos b t s ->
    get_bits_loop fuel k i ret s = Stop.
  Proof.
    intro F. induction k as [|k IH]; intros i ret t s I K A; [lia|].
    destruct (next_bit_ok fuel t s F A) as [x [u [s1 [E [S [A1 P1]]]]]].
    cbn [get_bits_loop]. rewrite E. cbn [bind].
    destruct (Nat.eq_dec i (length ret)) as [D|D].
    - rewrite set_nth_none by lia. reflexivity.
    - destruct (set_nth_ok ret i x ltac:(lia)) as [r1 [E1 [L1 _]]]. rewrite E1. apply (IH _ _ u); [lia|lia|exact A1].
  Qed.

  Lemma get_bits_many_ok fuel m : 80 <= fuel -> forall rs t s, Forall (fun n => n <= m) rs -> at_pos b t s ->
    exists ls u s', get_bits_many fuel m rs s = Done (map (fun l => l ++ repeat false (m - length l)) ls, s') /\
    map (@length bool) ls = rs /\ selected b (t + 80) (concat ls) (u + 80) /\ at_pos b u s'.
  Proof.
    intro F. induction rs as [|n rs IH]; intros t s R A.
    - exists [], t, s. split; [reflexivity|]. split; [reflexivity|]. split; [apply sel_nil|exact A].
    - inversion R as [|? ? N R']; subst.
      destruct (get_bits_ok fuel m n t s F N A) as [l [u [s1 [E [L [S [A1 _]]]]]]].
      destruct (IH u s1 R' A1) as [ls [w [s2 [E2 [L2 [S2 A2]]]]]].
      exists (l :: ls), w, s2. cbn [get_bits_many]. rewrite E. cbn [bind]. rewrite E2. cbn [bind map concat].
      rewrite L, L2. split; [reflexivity|]. split; [reflexivity|]. split; [|exact A2].
      apply (selected_app b _ l _ _ _ S S2).
  Qed.

  Variable f : field_params.
  Hypothesis FL : f_bits f <= 64 * f_limbs f.
  Let m := f_bits f.

  Definition pos (t : nat) (s : lfsr) := at_pos b t s /\ g_prime_bits s = Z.of_nat m.

  Lemma draw_int_ok fuel t s : 80 <= fuel -> pos t s -> exists l u s',
    draw_int fuel f s = Done (bits_val (rev l), s') /\ length l = m /\ selected b (t + 80) l (u + 80) /\ pos u s'.
  Proof.
    intros F [A P]. unfold draw_int. rewrite P, Nat2Z.id.
    destruct (get_bits_ok fuel m m t s F (Nat.le_refl _) A) as [l [u [s' [E [L [S [A' P']]]]]]].
    fold m. rewrite E. cbn [bind]. rewrite Nat.sub_diag. cbn [repeat]. rewrite app_nil_r.
    exists l, u, s'. split; [|split; [exact L|split; [exact S|split; [exact A'|congruence]]]].
    do 2 f_equal. apply from_bits_both. rewrite L. exact FL.
  Qed.

  Definition below (v : Z) : bool := (v <? f_modulus f)%Z.

  Lemma integers_app : forall t vs u ws w, integers b m t vs u -> integers b m u ws w -> integers b m t (vs ++ ws) w.
  Proof.
    intros t vs u ws w H. revert ws w. induction H as [t|t l u vs w' L S I IH]; intros ws w H2; [exact H2|].
    cbn [app]. apply (int_cons b m t l u); [exact L|exact S|]. apply IH, H2.
  Qed.

  (** Either an accepted integer after rejected ones, or only rejected ones. *)
  Lemma sample_one_ok fuel : 80 <= fuel -> forall tries t s, pos t s ->
    (exists vs v u s', sample_one tries fuel f s = Done (v, s') /\ integers b m (t + 80) (vs ++ [v]) (u + 80) /\
      Forall (fun v => below v = false) vs /\ below v = true /\ pos u s' /\ length vs < tries) \/
    (sample_one tries fuel f s = Pending /\ exists vs u, integers b m (t + 80) vs u /\ length vs = tries /\
      Forall (fun v => below v = false) vs).
  Proof.
    intro F. induction tries as [|k IH]; intros t s P.
    - right. split; [reflexivity|]. exists [], (t + 80). split; [apply int_nil|]. split; [reflexivity|constructor].
    - destruct (draw_int_ok fuel t s F P) as [l [u [s1 [E [L [S P1]]]]]].
      cbn [sample_one]. rewrite E. cbn [bind]. fold (below (bits_val (rev l))).
      destruct (below (bits_val (rev l))) eqn:B.
      + left. exists [], (bits_val (rev l)), u, s1. cbn [app]. split; [reflexivity|]. split; [|split; [constructor|split; [exact B|split; [exact P1|cbn; lia]]]].
        apply (int_cons b m _ l (u + 80)); [exact L|exact S|apply int_nil].
      + destruct (IH u s1 P1) as [[vs [v [w [s2 [E2 [I [R [V [P2 T]]]]]]]]]|[E2 [vs [w [I [T R]]]]]].
        * left. exists (bits_val (rev l) :: vs), v, w, s2. split; [exact E2|]. split; [|split; [constructor; assumption|split; [exact V|split; [exact P2|cbn; lia]]]].
          cbn [app]. apply (int_cons b m _ l (u + 80)); assumption.
        * right. split; [exact E2|]. exists (bits_val (rev l) :: vs), w. split; [|split; [cbn; lia|constructor; assumption]].
          apply (int_cons b m _ l (u + 80)); assumption.
  Qed.

  (** The last integer drawn was accepted. *)
  Definition ends_accepted (vs : list Z) : Prop := forall ws v, vs = ws ++ [v] -> below v = true.

  Lemma filter_none vs : Forall (fun v => below v = false) vs -> filter below vs = [].
  Proof. induction 1 as [|v vs V R IH]; [reflexivity|]. cbn [filter]. rewrite V. exact IH. Qed.

  Lemma ends_app vs ws : ends_accepted vs -> ends_accepted ws -> ends_accepted (vs ++ ws).
  Proof.
    intros A B xs v E. destruct ws as [|w ws].
    - rewrite app_nil_r in E. apply (A xs v E).
    - destruct (exists_last (l := w :: ws) ltac:(discriminate)) as [ys [y Y]]. rewrite Y in *.
      rewrite app_assoc in E. apply app_inj_tail in E. destruct E as [_ <-]. apply (B ys y eq_refl).
  Qed.

  Lemma sample_loop_ok tries fuel : 80 <= fuel -> forall n t s, pos t s ->
    (exists vs u s', sample_loop tries fuel f n s = Done (filter below vs, s') /\ integers b m (t + 80) vs (u + 80) /\
      length (filter below vs) = n /\ ends_accepted vs /\ pos u s') \/
    (sample_loop tries fuel f n s = Pending /\ exists vs ws u, integers b m (t + 80) (vs ++ ws) u /\ length ws = tries /\
      Forall (fun v => below v = false) ws).
  Proof.
    intro F. induction n as [|n IH]; intros t s P.
    - left. exists [], t, s. split; [reflexivity|]. split; [apply int_nil|]. split; [reflexivity|]. split; [|exact P].
      intros ws v E. destruct ws; discriminate.
    - cbn [sample_loop].
      destruct (sample_one_ok fuel F tries t s P) as [[vs [v [u [s1 [E [I [R [V [P1 _]]]]]]]]]|[E [vs [u [I [T R]]]]]]; rewrite E; cbn [bind].
      + destruct (IH u s1 P1) as [[ws [w [s2 [E2 [I2 [L2 [A2 P2]]]]]]]|[E2 [ws [xs [w [I2 [T R2]]]]]]]; rewrite E2; cbn [bind].
        * left. exists ((vs ++ [v]) ++ ws), w, s2.
          rewrite !filter_app, (filter_none vs R). cbn [filter app]. rewrite V. cbn [app].
          split; [reflexivity|]. split; [apply (integers_app _ _ _ _ _ I I2)|]. split; [cbn [length]; lia|]. split; [|exact P2].
          apply ends_app; [|exact A2]. intros xs x X. apply app_inj_tail in X. destruct X as [_ <-]. exact V.
        * right. split; [reflexivity|]. exists ((vs ++ [v]) ++ ws), xs, w. split; [|split; [exact T|exact R2]].
          rewrite <- app_assoc. apply (integers_app _ _ _ _ _ I I2).
      + right. split; [reflexivity|]. exists [], vs, u. split; [exact I|]. split; [exact T|exact R].
  Qed.
  Lemma rejection_ok tries fuel n t s : 80 <= fuel -> pos t s ->
    (exists vs u s', rejection_sampling tries fuel f n s = Done (filter below vs, s') /\ integers b m (t + 80) vs (u + 80) /\
      length (filter below vs) = n /\ ends_accepted vs /\ pos u s') \/
    (rejection_sampling tries fuel f n s = Pending /\ exists vs ws u, integers b m (t + 80) (vs ++ ws) u /\ length ws = tries /\
      Forall (fun v => below v = false) ws).
  Proof.
    intros F P. unfold rejection_sampling. destruct P as [A E]. rewrite E. fold m. rewrite Z.eqb_refl.
    apply sample_loop_ok; [exact F|]. split; assumption.
  Qed.

  Lemma mod_p_loop_ok fuel : 80 <= fuel -> forall n t s, pos t s ->
    exists vs u s', mod_p_loop fuel f n s = Done (map (fun v => v mod f_modulus f)%Z vs, s') /\
      integers b m (t + 80) vs (u + 80) /\ length vs = n /\ pos u s'.
  Proof.
    intro F. induction n as [|n IH]; intros t s P.
    - exists [], t, s. split; [reflexivity|]. split; [apply int_nil|]. split; [reflexivity|exact P].
    - destruct (draw_int_ok fuel t s F P) as [l [u [s1 [E [L [S P1]]]]]].
      destruct (IH u s1 P1) as [vs [w [s2 [E2 [I [L2 P2]]]]]].
      exists (bits_val (rev l) :: vs), w, s2. cbn [mod_p_loop]. rewrite E. cbn [bind]. rewrite E2. cbn [bind map length].
      split; [reflexivity|]. split; [|split; [lia|exact P2]]. apply (int_cons b m _ l (u + 80)); assumption.
  Qed.
  Lemma mod_p_ok fuel n t s : 80 <= fuel -> pos t s ->
    exists vs u s', mod_p fuel f n s = Done (map (fun v => v mod f_modulus f)%Z vs, s') /\
      integers b m (t + 80) vs (u + 80) /\ length vs = n /\ pos u s'.
  Proof.
    intros F P. unfold mod_p. destruct P as [A E]. rewrite E. fold m. rewrite Z.eqb_refl.
    apply mod_p_loop_ok; [exact F|]. split; assumption.
  Qed.

  Lemma skip_ok fuel k : 80 <= fuel -> forall n t s, pos t s ->
    exists vs u s', skip_draws fuel f k n s = Done s' /\ integers b m (t + 80) vs (u + 80) /\ length vs = n * (2 * k) /\ pos u s'.
  Proof.
    intro F. induction n as [|n IH]; intros t s P.
    - exists [], t, s. split; [reflexivity|]. split; [apply int_nil|]. split; [reflexivity|exact P].
    - destruct (mod_p_ok fuel (2 * k) t s F P) as [vs [u [s1 [E [I [L P1]]]]]].
      destruct (IH u s1 P1) as [ws [w [s2 [E2 [I2 [L2 P2]]]]]].
      exists (vs ++ ws), w, s2. cbn [skip_draws]. rewrite E. cbn [bind]. rewrite E2.
      split; [reflexivity|]. split; [apply (integers_app _ _ _ _ _ I I2)|]. split; [|exact P2].
      rewrite app_length, L, L2. lia.
  Qed.

  Lemma ark_ok tries fuel k : 80 <= fuel -> forall rows t s, pos t s ->
    (exists vs u s' ark, ark_rows tries fuel f k rows s = Done (ark, s') /\ concat ark = filter below vs /\
      length ark = rows /\ Forall (fun r => length r = k) ark /\
      integers b m (t + 80) vs (u + 80) /\ ends_accepted vs /\ pos u s') \/
    (ark_rows tries fuel f k rows s = Pending /\ exists vs ws u, integers b m (t + 80) (vs ++ ws) u /\ length ws = tries /\
      Forall (fun v => below v = false) ws).
  Proof.
    intro F. induction rows as [|rows IH]; intros t s P.
    - left. exists [], t, s, []. split; [reflexivity|]. split; [reflexivity|]. split; [reflexivity|]. split; [constructor|].
      split; [apply int_nil|]. split; [|exact P]. intros ws v E. destruct ws; discriminate.
    - cbn [ark_rows].
      destruct (rejection_ok tries fuel k t s F P) as [[vs [u [s1 [E [I [L [A P1]]]]]]]|[E X]]; rewrite E; cbn [bind].
      + destruct (IH u s1 P1) as [[ws [w [s2 [ark [E2 [C2 [L2 [R2 [I2 [A2 P2]]]]]]]]]]|[E2 [ws [xs [w [I2 [T R2]]]]]]]; rewrite E2; cbn [bind].
        * left. exists (vs ++ ws), w, s2, (filter below vs :: ark). split; [reflexivity|].
          cbn [concat length]. rewrite filter_app, C2. split; [reflexivity|]. split; [lia|]. split; [constructor; assumption|].
          split; [apply (integers_app _ _ _ _ _ I I2)|]. split; [apply ends_app; assumption|exact P2].
        * right. split; [reflexivity|]. exists (vs ++ ws), xs, w. rewrite <- app_assoc.
          split; [apply (integers_app _ _ _ _ _ I I2)|]. split; [exact T|exact R2].
      + right. split; [reflexivity|exact X].
  Qed.
End Stream.
