(** The statements of GrainProps. *)
From Coq Require Import ZArith List Bool Lia.
From Verif Require Import BigIntModel BigIntSpec GrainModel GrainSpec GrainProof GrainProof2 GrainProof3.
Import ListNotations.
Open Scope nat_scope.

Lemma stream_ok c b : grain b -> initial c b -> exists s, construct c = Done s /\
  forall n, exists s', update_n n s = Done (map b (seq 240 n), s').
Proof.
  intros G I. destruct (construct_ok c b G I) as [s [E [A _]]]. exists s. split; [exact E|].
  intro n. destruct (update_n_ok b G n 160 s A) as [s' [E' _]]. exists s'. exact E'.
Qed.

Lemma sequence_unique c : exists b, (grain b /\ initial c b) /\
  forall b', grain b' -> initial c b' -> forall i, b' i = b i.
Proof.
  destruct (sequence_exists c) as [b [G I]]. exists b. split; [split; assumption|].
  intros b' G' I'. apply (grain_window b' b 0 G' G). intros j J. cbn [Nat.add].
  destruct (initial_state_ok c) as [st [_ [_ N]]].
  pose proof (N b I j J) as X. pose proof (N b' I' j J) as Y. congruence.
Qed.

Lemma distinct_configs c1 c2 s1 s2 n l1 l2 last t1 t2 : construct c1 = Done s1 -> construct c2 = Done s2 ->
  length l1 = n -> length l2 = n -> length last = 80 ->
  update_n (n + 80) s1 = Done (l1 ++ last, t1) -> update_n (n + 80) s2 = Done (l2 ++ last, t2) ->
  c_inverse c1 = c_inverse c2 /\ (c_prime_bits c1 mod 2 ^ 12 = c_prime_bits c2 mod 2 ^ 12)%Z /\
  (c_state_len c1 mod 2 ^ 12 = c_state_len c2 mod 2 ^ 12)%Z /\ (c_full c1 mod 2 ^ 10 = c_full c2 mod 2 ^ 10)%Z /\
  (c_partial c1 mod 2 ^ 10 = c_partial c2 mod 2 ^ 10)%Z.
Proof.
  intros C1 C2 L1 L2 L U1 U2.
  destruct (sequence_exists c1) as [b1 [G1 I1]]. destruct (sequence_exists c2) as [b2 [G2 I2]].
  destruct (stream_ok c1 b1 G1 I1) as [x1 [X1 S1]]. destruct (stream_ok c2 b2 G2 I2) as [x2 [X2 S2]].
  rewrite C1 in X1. injection X1 as <-. rewrite C2 in X2. injection X2 as <-.
  destruct (S1 (n + 80)) as [y1 Y1]. destruct (S2 (n + 80)) as [y2 Y2].
  rewrite U1 in Y1. rewrite U2 in Y2.
  assert (Z1 : l1 ++ last = map b1 (seq 240 (n + 80))) by congruence.
  assert (Z2 : l2 ++ last = map b2 (seq 240 (n + 80))) by congruence.
  assert (K : forall i, b1 i = b2 i).
  { apply (grain_window b1 b2 (240 + n) G1 G2). intros j J.
    assert (W : forall b l, length l = n -> l ++ last = map b (seq 240 (n + 80)) -> nth_error last j = Some (b (240 + n + j))).
    { clear - J. intros b l Ll E.
      assert (Q : nth_error (l ++ last) (n + j) = Some (b (240 + n + j))).
      { rewrite E, nth_error_map. 
        rewrite (nth_error_nth' _ 0) by (rewrite seq_length; lia). rewrite seq_nth by lia. cbn [option_map].
        do 2 f_equal; lia. }
      rewrite nth_error_app2 in Q by lia. replace (n + j - length l) with j in Q by lia. exact Q. }
    pose proof (W b1 l1 L1 Z1). pose proof (W b2 l2 L2 Z2). congruence. }
  clear - I1 I2 K.
  destruct I1 as [_ [_ [_ [_ [_ [A5 [An [At [Af [Ap _]]]]]]]]]].
  destruct I2 as [_ [_ [_ [_ [_ [B5 [Bn [Bt [Bf [Bp _]]]]]]]]]].
  split; [rewrite <- A5, <- B5; apply K|].
  split; [apply (binary_inj b1 b2 6 12 _ _ An Bn K)|]. split; [apply (binary_inj b1 b2 18 12 _ _ At Bt K)|].
  split; [apply (binary_inj b1 b2 30 10 _ _ Af Bf K)|apply (binary_inj b1 b2 40 10 _ _ Ap Bp K)].
Qed.

Definition wide (t : Z) : config := {| c_inverse := false; c_prime_bits := 31; c_state_len := t; c_full := 8; c_partial := 22 |}.
Lemma truncated : exists c1 c2, c_state_len c1 <> c_state_len c2 /\ construct c1 = construct c2 /\
  (0 <= c_state_len c1 < 2 ^ 64 /\ 0 <= c_state_len c2 < 2 ^ 64)%Z.
Proof.
  exists (wide 3), (wide 4099). split; [discriminate|]. split; [|cbn; lia].
  unfold construct. replace (initial_state (wide 4099)) with (initial_state (wide 3)) by (vm_compute; reflexivity). reflexivity.
Qed.

Lemma initial_nonzero c b : initial c b -> b 50 = true.
Proof. intros [_ [_ [_ [_ [_ [_ [_ [_ [_ [_ H]]]]]]]]]]. apply H. lia. Qed.

Lemma bits_ok c b fuel m requests : grain b -> initial c b -> 80 <= fuel -> Forall (fun n => n <= m) requests ->
  exists s ls u s', construct c = Done s /\
    get_bits_many fuel m requests s = Done (map (fun l => l ++ repeat false (m - length l)) ls, s') /\
    map (@length bool) ls = requests /\ selected b 240 (concat ls) u.
Proof.
  intros G I F R. destruct (construct_ok c b G I) as [s [E [A _]]].
  destruct (get_bits_many_ok b 50 G (initial_nonzero c b I) fuel m F requests 160 s R A) as [ls [u [s' [E2 [L [S _]]]]]].
  exists s, ls, (u + 80), s'. split; [exact E|]. split; [exact E2|]. split; [exact L|exact S].
Qed.

Lemma bits_too_many c fuel m requests n : 80 <= fuel -> Forall (fun n => n <= m) requests -> m < n ->
  exists s, construct c = Done s /\ get_bits_many fuel m (requests ++ [n]) s = Stop.
Proof.
  intros F R N. destruct (sequence_exists c) as [b [G I]]. destruct (construct_ok c b G I) as [s [E [A _]]].
  exists s. split; [exact E|]. revert A. generalize 160. clear E. revert s. induction R as [|k rs K R IH]; intros s t A.
  - cbn [app get_bits_many]. unfold get_bits.
    rewrite (get_bits_loop_stop b 50 G (initial_nonzero c b I) fuel F n 0 (repeat false m) t s);
      [reflexivity|lia|rewrite repeat_length; lia|exact A].
  - cbn [app get_bits_many].
    destruct (get_bits_ok b 50 G (initial_nonzero c b I) fuel m k t s F K A) as [l [u [s1 [E [_ [_ [A1 _]]]]]]].
    rewrite E. cbn [bind]. rewrite (IH s1 u A1). reflexivity.
Qed.


Lemma rejection c b f tries fuel n : grain b -> initial c b -> 80 <= fuel ->
  f_bits f <= 64 * f_limbs f -> c_prime_bits c = Z.of_nat (f_bits f) -> exists s, construct c = Done s /\
  ((exists vs u s', rejection_sampling tries fuel f n s = Done (filter (in_field f) vs, s') /\
      integers b (f_bits f) 240 vs u /\ length (filter (in_field f) vs) = n /\
      (forall ws v, vs = ws ++ [v] -> (v < f_modulus f)%Z)) \/
   (rejection_sampling tries fuel f n s = Pending /\ exists vs ws u, integers b (f_bits f) 240 (vs ++ ws) u /\
      length ws = tries /\ Forall (fun v => (f_modulus f <= v)%Z) ws)).
Proof.
  intros G I F L P. destruct (construct_ok c b G I) as [s [E [A PB]]]. exists s. split; [exact E|].
  destruct (rejection_ok b 50 G (initial_nonzero c b I) f L tries fuel n 160 s F) as [[vs [u [s' [E2 [J [N [W _]]]]]]]|[E2 [vs [ws [u [J [N W]]]]]]].
  - split; [exact A|congruence].
  - left. exists vs, (u + 80), s'. split; [exact E2|]. split; [exact J|]. split; [exact N|].
    intros ws v X. apply Z.ltb_lt. apply (W ws v X).
  - right. split; [exact E2|]. exists vs, ws, u. split; [exact J|]. split; [exact N|].
    revert W. apply Forall_impl. intros v V. apply Z.ltb_ge. exact V.
Qed.

Lemma rejection_mismatch c f tries fuel n : c_prime_bits c <> Z.of_nat (f_bits f) -> exists s, construct c = Done s /\
  rejection_sampling tries fuel f n s = Stop /\ mod_p fuel f n s = Stop.
Proof.
  intros D. destruct (sequence_exists c) as [b [G I]]. destruct (construct_ok c b G I) as [s [E [_ PB]]].
  exists s. split; [exact E|]. unfold rejection_sampling, mod_p. rewrite PB.
  replace (Z.of_nat (f_bits f) =? c_prime_bits c)%Z with false by (symmetry; apply Z.eqb_neq; lia). split; reflexivity.
Qed.

Lemma mod_p_values c b f fuel n : grain b -> initial c b -> 80 <= fuel ->
  f_bits f <= 64 * f_limbs f -> c_prime_bits c = Z.of_nat (f_bits f) -> exists s vs u s', construct c = Done s /\
  mod_p fuel f n s = Done (map (fun v => (v mod f_modulus f)%Z) vs, s') /\ integers b (f_bits f) 240 vs u /\ length vs = n.
Proof.
  intros G I F L P. destruct (construct_ok c b G I) as [s [E [A PB]]].
  destruct (mod_p_ok b 50 G (initial_nonzero c b I) f L fuel n 160 s F) as [vs [u [s' [E2 [J [N _]]]]]]; [split; [exact A|congruence]|].
  exists s, vs, (u + 80), s'. split; [exact E|]. split; [exact E2|]. split; [exact J|exact N].
Qed.

Lemma find_ok c b f tries fuel skips : grain b -> initial c b -> 80 <= fuel ->
  f_bits f <= 64 * f_limbs f -> c_prime_bits c = Z.of_nat (f_bits f) ->
  let t := Z.to_nat (c_state_len c) in
  (exists ark xs ys vs skipped vx vy u,
    find_ark_xs_ys tries fuel f c skips = Done (ark, xs, ys) /\
    integers b (f_bits f) 240 (vs ++ skipped ++ vx ++ vy) u /\
    concat ark = filter (in_field f) vs /\ (forall ws v, vs = ws ++ [v] -> (v < f_modulus f)%Z) /\
    length ark = Z.to_nat (c_full c + c_partial c) /\ Forall (fun row => length row = t) ark /\
    length skipped = skips * (2 * t) /\ length vx = t /\ length vy = t /\
    xs = map (fun v => (v mod f_modulus f)%Z) vx /\ ys = map (fun v => (v mod f_modulus f)%Z) vy) \/
  (find_ark_xs_ys tries fuel f c skips = Pending /\ exists vs ws u, integers b (f_bits f) 240 (vs ++ ws) u /\
    length ws = tries /\ Forall (fun v => (f_modulus f <= v)%Z) ws).
Proof.
  intros G I F L P t. destruct (construct_ok c b G I) as [s [E [A PB]]].
  assert (P0 : pos b f 160 s) by (split; [exact A|congruence]). pose proof (initial_nonzero c b I) as NZ.
  unfold find_ark_xs_ys. rewrite E. cbn [bind]. fold t.
  destruct (ark_ok b 50 G NZ f L tries fuel t F (Z.to_nat (c_full c + c_partial c)) 160 s P0)
    as [[vs [u [s1 [ark [E1 [C1 [L1 [R1 [J1 [W1 P1]]]]]]]]]]|[E1 [vs [ws [u [J [N W]]]]]]]; rewrite E1; cbn [bind].
  - left. destruct (skip_ok b 50 G NZ f L fuel t F skips u s1 P1) as [sk [u2 [s2 [E2 [J2 [L2 P2]]]]]]. rewrite E2. cbn [bind].
    destruct (mod_p_ok b 50 G NZ f L fuel t u2 s2 F P2) as [vx [u3 [s3 [E3 [J3 [L3 P3]]]]]]. rewrite E3. cbn [bind].
    destruct (mod_p_ok b 50 G NZ f L fuel t u3 s3 F P3) as [vy [u4 [s4 [E4 [J4 [L4 P4]]]]]]. rewrite E4. cbn [bind].
    do 8 eexists. split; [reflexivity|]. split.
    { apply (integers_app b f _ _ _ _ _ J1). apply (integers_app b f _ _ _ _ _ J2). apply (integers_app b f _ _ _ _ _ J3 J4). }
    split; [exact C1|]. split; [intros ws v X; apply Z.ltb_lt; apply (W1 ws v X)|].
    split; [exact L1|]. split; [exact R1|]. split; [exact L2|]. split; [exact L3|]. split; [exact L4|]. split; reflexivity.
  - right. split; [reflexivity|]. exists vs, ws, u. split; [exact J|]. split; [exact N|].
    revert W. apply Forall_impl. intros v V. apply Z.ltb_ge. exact V.
Qed.
