From Coq Require Import ZArith List Bool Lia Arith Znumtheory.
From Verif Require Import BigIntModel BigIntSpec BigIntProof PrimeFieldModel PrimeFieldSpec PrimeFieldProof PrimeFieldExtra
  BufferModel BufferSpec BufferProof BufferExtra RngModel RngSpec RngProof RngProof2.
Import ListNotations.
Open Scope Z_scope.

(** ** Saving and restoring *)
Lemma set_endian_twice e f b : set_endian e (set_endian f b) = set_endian e b.
Proof. reflexivity. Qed.
Lemma set_endian_id b : set_endian (end_ b) b = b.
Proof. destruct b; reflexivity. Qed.
Lemma set_endian_in_range e b : in_range b -> in_range (set_endian e b).
Proof. intros H. exact H. Qed.
Lemma write_endian t v b b' : narrow t = true -> valid t v -> in_range b -> write t v b = (true, b') -> end_ b' = end_ b.
Proof.
  intros Hn Hv Hr E. destruct (composite_layout t v b Hn Hv Hr) as [H1 H2].
  destruct (fits_dec b (encoding (end_ b) t v)) as [F|F]; [rewrite (H1 F) in E; injection E as <-; reflexivity|].
  specialize (H2 F). rewrite E in H2. discriminate H2.
Qed.
Lemma restore {A} t (v : den t) (b b' : buffer) : narrow t = true -> valid t v -> in_range b ->
  write t v (set_endian Little b) = (true, b') ->
  forall (k : den t -> A) (z : A) , match read t (set_endian Little (set_off (off b) (set_endian (end_ b) b'))) with
    | (Some x, b2) => (true, k x, set_endian (end_ b) b2)
    | (None, b2) => (false, z, set_endian (end_ b) b2) end = (true, k v, set_endian (end_ b) b').
Proof.
  intros Hn Hv Hr HW k z.
  pose proof (composite_roundtrip t v (set_endian Little b) b' Hn Hv (set_endian_in_range Little b Hr) HW) as R.
  pose proof (write_endian t v _ _ Hn Hv (set_endian_in_range Little b Hr) HW) as E. cbn [set_endian end_] in E.
  replace (set_endian Little (set_off (off b) (set_endian (end_ b) b'))) with (set_off (off (set_endian Little b)) b').
  2:{ unfold set_endian, set_off. cbn [bytes off end_ growable]. destruct b' as [y o e g]. cbn in *. subst e. reflexivity. }
  rewrite R. reflexivity.
Qed.

Lemma xs_save_restore : forall s s0 b b', words 4 [xs_x s; xs_y s; xs_z s; xs_w s] -> in_range b ->
  xs_write s b = (true, b') -> xs_read (set_off (off b) b') s0 = (true, s, b').
Proof.
  intros s s0 b b' [_ Hw] Hr E. unfold xs_write in E.
  destruct (write xs_ty (xs_x s, (xs_y s, (xs_z s, xs_w s))) (set_endian Little b)) as [r b1] eqn:EW.
  injection E as -> <-.
  assert (V : valid xs_ty (xs_x s, (xs_y s, (xs_z s, xs_w s)))).
  { inversion Hw as [|? ? A1 Hw1]; subst. inversion Hw1 as [|? ? A2 Hw2]; subst. inversion Hw2 as [|? ? A3 Hw3]; subst.
    inversion Hw3 as [|? ? A4 Hw4]; subst. cbn [valid xs_ty fst snd]. change (256 ^ Z.of_nat (size_of W4)) with (2 ^ 32). tauto. }
  pose proof (restore xs_ty _ b b1 eq_refl V Hr EW (fun x => let '(x, (y, (z, w))) := x in XS x y z w) s0) as R.
  cbv beta in R. unfold xs_read. cbn [set_off end_ set_endian bytes off growable] in *.
  destruct (read xs_ty _) as [[(x & y & z & w)|] b2]; [|discriminate R]. rewrite R. destruct s; reflexivity.
Qed.
Lemma xs_layout : forall s b, words 4 [xs_x s; xs_y s; xs_z s; xs_w s] -> in_range b ->
  let d := concat (map (int_bytes Little 4) [xs_x s; xs_y s; xs_z s; xs_w s]) in
  length d = 16%nat /\ (fits b d -> xs_write s b = (true, put b d)) /\ (~ fits b d -> fst (xs_write s b) = false).
Proof.
  intros s b [_ Hw] Hr d. split; [unfold d; cbn [map concat]; rewrite !app_length, !int_bytes_length; reflexivity|].
  assert (V : valid xs_ty (xs_x s, (xs_y s, (xs_z s, xs_w s)))).
  { inversion Hw as [|? ? A1 Hw1]; subst. inversion Hw1 as [|? ? A2 Hw2]; subst. inversion Hw2 as [|? ? A3 Hw3]; subst.
    inversion Hw3 as [|? ? A4 Hw4]; subst. cbn [valid xs_ty fst snd]. change (256 ^ Z.of_nat (size_of W4)) with (2 ^ 32). tauto. }
  destruct (composite_layout xs_ty _ (set_endian Little b) eq_refl V Hr) as [H1 H2].
  assert (Ed : encoding (end_ (set_endian Little b)) xs_ty (xs_x s, (xs_y s, (xs_z s, xs_w s))) = d).
  { unfold d. cbn [encoding xs_ty fst snd set_endian end_ map concat size_of]. rewrite app_nil_r. reflexivity. }
  rewrite Ed in H1, H2. unfold xs_write. split; intros F.
  - rewrite (H1 F). reflexivity.
  - specialize (H2 F). destruct (write _ _ _) as [r b1]. cbn [fst] in *. exact H2.
Qed.

(** ChaCha20: the words are written, the bytes are read. *)
Lemma bytes_id l : Forall (fun x => 0 <= x < 256) l -> concat (map (int_bytes Little 1) l) = l.
Proof.
  induction l as [|x l IH]; intros F; [reflexivity|]. inversion_clear F. cbn [map concat]. rewrite IH by assumption.
  unfold int_bytes. cbn [seq map]. unfold byte. change (256 ^ Z.of_nat 0) with 1. rewrite Z.div_1_r, Z.mod_small by lia. reflexivity.
Qed.
Lemma int_bytes_range e n v : Forall (fun x => 0 <= x < 256) (int_bytes e n v).
Proof.
  apply Forall_forall. intros x Hx. unfold int_bytes in Hx. apply in_map_iff in Hx. destruct Hx as (k & <- & _).
  destruct e; apply Z.mod_pos_bound; lia.
Qed.
Lemma concat_range {A} (f : A -> list Z) l : (forall x, Forall (fun y => 0 <= y < 256) (f x)) -> Forall (fun y => 0 <= y < 256) (concat (map f l)).
Proof. intros H. induction l as [|x l IH]; [constructor|]. cbn [map concat]. apply Forall_app. auto. Qed.
Lemma words_back inp : Forall (fun w => 0 <= w < 2 ^ 32) inp ->
  map (word_at (concat (map (int_bytes Little 4) inp))) (seq 0 (length inp)) = inp.
Proof.
  induction inp as [|x inp IH]; intros F; [reflexivity|]. inversion_clear F. cbn [length seq map concat]. f_equal.
  - unfold word_at. rewrite Nat.mul_0_r, skipn_O, firstn_app, int_bytes_length, Nat.sub_diag, firstn_O, app_nil_r.
    rewrite firstn_all2 by (rewrite int_bytes_length; lia). rewrite int_bytes_little. apply le_value_bytes. exact H.
  - rewrite <- seq_shift, map_map. rewrite <- (IH H0) at 2. apply map_ext. intros i. unfold word_at.
    rewrite skipn_app, int_bytes_length. rewrite skipn_all2 by (rewrite int_bytes_length; lia).
    replace (4 * S i - 4)%nat with (4 * i)%nat by lia. reflexivity.
Qed.
Definition cc_ok (s : cc) : Prop := 0 <= cc_index s < 2 ^ 64 /\ words 16 (cc_input s) /\ byte_string 64 (cc_output s).
Definition cc_bytes (s : cc) : list Z :=
  int_bytes Little 8 (cc_index s) ++ concat (map (int_bytes Little 4) (cc_input s)) ++ cc_output s.
Lemma cc_write_valid s : cc_ok s -> valid cc_write_ty (cc_index s, (cc_input s, cc_output s)).
Proof.
  intros (Hi & [Li Fi] & [Lo Fo]). cbn [valid cc_write_ty fst snd size_of].
  change (256 ^ Z.of_nat 8) with (2 ^ 64). change (256 ^ Z.of_nat 4) with (2 ^ 32). change (256 ^ Z.of_nat 1) with 256. tauto.
Qed.
Lemma cc_write_encoding s : cc_ok s -> encoding Little cc_write_ty (cc_index s, (cc_input s, cc_output s)) = cc_bytes s.
Proof.
  intros (_ & _ & [_ Fo]). cbn [encoding cc_write_ty fst snd size_of]. unfold cc_bytes. f_equal. f_equal.
  apply (bytes_id _ Fo).
Qed.
Lemma cc_layout : forall s b, cc_ok s -> in_range b -> length (cc_bytes s) = 136%nat /\
  (fits b (cc_bytes s) -> cc_write s b = (true, put b (cc_bytes s))) /\ (~ fits b (cc_bytes s) -> fst (cc_write s b) = false).
Proof.
  intros s b H Hr. split.
  { destruct H as (_ & [Li _] & [Lo _]). unfold cc_bytes. rewrite !app_length, int_bytes_length, Lo.
    destruct (list16 _ Li) as (x1 & x2 & x3 & x4 & x5 & x6 & x7 & x8 & x9 & x10 & x11 & x12 & x13 & x14 & x15 & x16 & ->).
    cbn [map concat]. rewrite !app_length, !int_bytes_length. reflexivity. }
  destruct (composite_layout cc_write_ty _ (set_endian Little b) eq_refl (cc_write_valid s H) Hr) as [H1 H2].
  cbn [set_endian end_] in H1, H2. rewrite cc_write_encoding in H1, H2 by exact H. unfold cc_write. split; intros F.
  - rewrite (H1 F). reflexivity.
  - specialize (H2 F). unfold set_endian at 1. destruct (write _ _ _) as [r b1]. cbn [fst] in *. exact H2.
Qed.
Lemma cc_save_restore : forall s s0 b b', cc_ok s -> in_range b ->
  cc_write s b = (true, b') -> cc_read (set_off (off b) b') s0 = (true, s, b').
Proof.
  intros s s0 b b' H Hr E.
  destruct (cc_layout s b H Hr) as (Ld & H1 & H2).
  destruct (fits_dec b (cc_bytes s)) as [F|F]; [|specialize (H2 F); rewrite E in H2; discriminate H2].
  rewrite (H1 F) in E. injection E as <-.
  set (inp := concat (map (int_bytes Little 4) (cc_input s))).
  destruct H as (Hi & [Li Fi] & [Lo Fo]).
  assert (Linp : length inp = 64%nat).
  { unfold cc_bytes in Ld. rewrite !app_length, int_bytes_length, Lo in Ld. unfold inp. lia. }
  assert (Finp : Forall (fun y => 0 <= y < 256) inp) by (apply concat_range; intros; apply int_bytes_range).
  assert (V : valid cc_read_ty (cc_index s, (inp, cc_output s))).
  { cbn [valid cc_read_ty fst snd size_of]. change (256 ^ Z.of_nat 8) with (2 ^ 64). change (256 ^ Z.of_nat 1) with 256. tauto. }
  assert (Ee : encoding Little cc_read_ty (cc_index s, (inp, cc_output s)) = cc_bytes s).
  { cbn [encoding cc_read_ty fst snd size_of]. unfold cc_bytes. fold inp. f_equal. f_equal; apply bytes_id; assumption. }
  pose proof (put_in_range b (cc_bytes s) Hr F) as Hr'. destruct Hr as [[Ho1 Ho2] HL].
  assert (Hp : len (firstn (Z.to_nat (off b)) (bytes b)) = off b) by (unfold len in *; rewrite firstn_length; lia).
  unfold cc_read.
  rewrite (read_encoding cc_read_ty eq_refl _ V (set_endian Little (set_off (off b) (put b (cc_bytes s))))
    (firstn (Z.to_nat (off b)) (bytes b)) (skipn (Z.to_nat (off b) + length (cc_bytes s)) (bytes b))).
  - cbn [set_endian set_off end_ bytes off growable put]. rewrite Ee, Hp. unfold inp. rewrite <- Li. rewrite words_back by exact Fi.
    destruct s; reflexivity.
  - cbn [set_endian set_off end_ bytes put]. rewrite Ee. reflexivity.
  - cbn [set_endian set_off off]. symmetry. exact Hp.
  - apply Hr'.
Qed.
Lemma read_failure : (forall b s s' b', xs_read b s = (false, s', b') -> s' = s) /\
  (forall b s s' b', cc_read b s = (false, s', b') -> s' = s).
Proof.
  split; intros b s s' b'; [unfold xs_read|unfold cc_read]; destruct (read _ _) as [[v|] b1]; intros E.
  - destruct v as (x & y & z & w). discriminate E. - injection E as <- _. reflexivity.
  - destruct v as (x & y & z). discriminate E. - injection E as <- _. reflexivity.
Qed.

(** ** Field elements *)
Lemma next_u64_pair {S} (next : S -> option (Z * S)) s lo s1 hi s2 : 0 <= lo < 2 ^ 32 -> 0 <= hi < 2 ^ 32 ->
  next s = Some (lo, s1) -> next s1 = Some (hi, s2) -> next_u64 next s = Some (lo + 2 ^ 32 * hi, s2).
Proof.
  intros Hl Hh E1 E2. unfold next_u64. rewrite E1, E2. f_equal. f_equal. unfold trunc.
  rewrite Z.shiftl_mul_pow2 by lia. rewrite Z.mod_small by (change (2 ^ 64) with (2 ^ 32 * 2 ^ 32); nia).
  assert (Z0 : Z.land (hi * 2 ^ 32) lo = 0).
  { apply Z.bits_inj'. intros k Hk. rewrite Z.land_spec, Z.bits_0. destruct (Z.lt_ge_cases k 32) as [L|L].
    - rewrite (Z.mul_pow2_bits_low hi) by lia. reflexivity.
    - rewrite <- (Z.mod_small lo (2 ^ 32)) by lia. rewrite Z.mod_pow2_bits_high by lia. apply andb_false_r. }
  rewrite <- Z.lxor_lor by exact Z0. rewrite <- Z.add_nocarry_lxor by exact Z0. ring.
Qed.
Lemma draw_u64 {S} (next : S -> option (Z * S)) n : forall s ws s', Forall (fun w => 0 <= w < 2 ^ 32) ws ->
  draw next (2 * n) s = Some (ws, s') ->
  exists l, draw (next_u64 next) n s = Some (l, s') /\ limbs 64 n l /\ val 64 l = val 32 ws.
Proof.
  induction n as [|n IH]; intros s ws s' F D.
  - cbn in D. injection D as <- <-. exists []. split; [reflexivity|]. split; [split; constructor|reflexivity].
  - replace (2 * Datatypes.S n)%nat with (Datatypes.S (Datatypes.S (2 * n))) in D by lia. cbn [draw] in D.
    destruct (next s) as [[lo s1]|] eqn:E1; [|discriminate D]. destruct (next s1) as [[hi s2]|] eqn:E2; [|discriminate D].
    destruct (draw next (2 * n) s2) as [[r s3]|] eqn:E3; [|discriminate D]. injection D as <- <-.
    inversion_clear F as [|? ? Hlo F']. inversion_clear F' as [|? ? Hhi F''].
    destruct (IH s2 r s3 F'' E3) as (l & El & [Ll Fl] & Ev).
    exists ((lo + 2 ^ 32 * hi) :: l). cbn [draw]. rewrite (next_u64_pair next s lo s1 hi s2 Hlo Hhi E1 E2), El.
    split; [reflexivity|]. split.
    + split; [cbn [length]; rewrite Ll; reflexivity|]. constructor; [|exact Fl].
      change (2 ^ 64) with (2 ^ 32 * 2 ^ 32). nia.
    + cbn [val]. rewrite Ev. change (2 ^ 64) with (2 ^ 32 * 2 ^ 32). ring.
Qed.

Section field.
  Variable m : list Z.
  Hypothesis Hm : limbs 64 4 m.
  Hypothesis H1 : 1 < val 64 m.
  Hypothesis Ho : Z.odd (val 64 m) = true.
  Let c := mk_config m.
  Let p := val 64 m.
  Let R := 2 ^ (64 * Z.of_nat 4).
  Let G : good_config 3 c := mk_config_good 3 m Hm H1 Ho.
  Local Notation rep := (represents 4 p).
  Lemma reduce_pow k d : limbs 64 4 d -> (0 < k)%nat ->
    rep (bi_montgomery_reduce false (bi_mul_extend d (montgomery_pow (Datatypes.S k) m)) m (cfg_inverse64 c))
        (val 64 d * R ^ (Z.of_nat k - 1)).
  Proof.
    intros Ld Hk. destruct (montgomery_pow_correct 3 (Datatypes.S k) m Hm ltac:(lia) ltac:(lia)) as [Lr Er].
    destruct (bi_mul_extend_correct 4 d _ Ld Lr) as [Hl E].
    pose proof (G_p 3 c G) as Gp. change (val 64 (cfg_modulus c)) with p in Gp.
    pose proof (val_bound 64 4 d ltac:(lia) Ld) as Bd. fold R in Bd.
    assert (HR : 0 < R) by (apply Z.pow_pos_nonneg; lia).
    assert (Br : 0 <= val 64 (montgomery_pow (Datatypes.S k) m) < p) by (rewrite Er; apply Z.mod_pos_bound; fold p; lia).
    destruct (montgomery_reduce_correct 3 m (bi_mul_extend d (montgomery_pow (Datatypes.S k) m)) (cfg_inverse64 c) false Hm Hl (G_inv 3 c G)
      ltac:(discriminate)) as (Lo & Bo & q & Eq).
    { rewrite E. fold p. change (2 ^ (64 * Z.of_nat 4)) with R. clear - Bd Br HR. nia. }
    change (2 ^ (64 * Z.of_nat 4)) with R in Eq. fold p in Eq, Bo.
    split; [exact Lo|]. split; [fold p; lia|]. change (2 ^ (64 * Z.of_nat 4)) with R. fold p.
    assert (C : (val 64 (bi_montgomery_reduce false (bi_mul_extend d (montgomery_pow (Datatypes.S k) m)) m (cfg_inverse64 c)) * R) mod p
       = (val 64 d * R ^ (Z.of_nat k - 1) * R * R) mod p).
    { rewrite Eq, Z.mod_add by lia. rewrite E, Er. rewrite Zmult_mod_idemp_r. f_equal.
      rewrite Z.pow_mul_r by lia. fold R. replace (Z.of_nat (Datatypes.S k)) with (Z.of_nat k - 1 + 2) by lia.
      rewrite Z.pow_add_r by lia. ring. }
    apply (cancel_R 3 c G) in C. rewrite Z.mod_small in C by (exact Bo). exact C.
  Qed.
  Lemma from_uint512_rep l : limbs 64 8 l -> rep (from_uint512 c l) (val 64 l).
  Proof.
    intros Hl. unfold from_uint512. cbv zeta.
    assert (L0 : limbs 64 4 (firstn 4 l)) by (apply (limbs_firstn 64 4 4); exact Hl).
    assert (L1 : limbs 64 4 (skipn 4 l)) by (apply (limbs_skipn 64 4 4); exact Hl).
    rewrite (firstn_all2 (n := 4) (skipn 4 l)) by (rewrite (proj1 L1); lia).
    pose proof (reduce_pow 1 _ L0 ltac:(lia)) as A. pose proof (reduce_pow 2 _ L1 ltac:(lia)) as B.
    change (R ^ (Z.of_nat 1 - 1)) with 1 in A. replace (R ^ (Z.of_nat 2 - 1)) with R in B by (symmetry; apply Z.pow_1_r).
    pose proof (pf_add_rep 3 c G _ _ _ _ A B) as S.
    replace (val 64 l) with (val 64 (firstn 4 l) * 1 + val 64 (skipn 4 l) * R); [exact S|].
    rewrite <- (firstn_skipn 4 l) at 3. rewrite val_app by lia. rewrite (proj1 L0). fold R. ring.
  Qed.
  Lemma le_value_val l : le_value l = val 8 l.
  Proof. induction l as [|x l IH]; [reflexivity|]. cbn [le_value val]. rewrite IH. reflexivity. Qed.
  Lemma limbs_of_bytes n : forall l, length l = (8 * n)%nat -> Forall (fun b => 0 <= b < 256) l ->
    let k := map (fun i => le_value (firstn 8 (skipn (8 * i) l))) (seq 0 n) in limbs 64 n k /\ val 64 k = val 8 l.
  Proof.
    induction n as [|n IH]; intros l L F; cbv zeta.
    - destruct l; [|discriminate L]. split; [split; constructor|reflexivity].
    - cbn [seq map]. rewrite <- seq_shift, map_map. rewrite Nat.mul_0_r, skipn_O.
      assert (L1 : length (skipn 8 l) = (8 * n)%nat) by (rewrite skipn_length; lia).
      assert (F1 : Forall (fun b => 0 <= b < 256) (skipn 8 l)) by (rewrite <- (firstn_skipn 8 l) in F; apply Forall_app in F; tauto).
      assert (F0 : Forall (fun b => 0 <= b < 256) (firstn 8 l)) by (rewrite <- (firstn_skipn 8 l) in F; apply Forall_app in F; tauto).
      assert (L0 : length (firstn 8 l) = 8%nat) by (rewrite firstn_length; lia).
      destruct (IH (skipn 8 l) L1 F1) as [[LL FF] EE].
      assert (Ex : map (fun x => le_value (firstn 8 (skipn (8 * Datatypes.S x) l))) (seq 0 n)
                 = map (fun i => le_value (firstn 8 (skipn (8 * i) (skipn 8 l)))) (seq 0 n)).
      { apply map_ext. intros i. rewrite skipn_skipn'. replace (8 + 8 * i)%nat with (8 * Datatypes.S i)%nat by lia. reflexivity. }
      rewrite Ex. split.
      + split; [cbn [length]; rewrite LL; reflexivity|]. constructor; [|exact FF].
        rewrite le_value_val. pose proof (val_bound 8 8 (firstn 8 l) ltac:(lia) (conj L0 F0)) as B. exact B.
      + cbn [val]. rewrite EE, le_value_val. rewrite <- (firstn_skipn 8 l) at 3. rewrite val_app by lia. rewrite L0. reflexivity.
  Qed.
  Lemma from_uint512_bytes_rep l : byte_string 64 l -> rep (from_uint512_bytes c l) (val 8 l).
  Proof.
    intros [L F]. destruct (limbs_of_bytes 8 l L F) as [HL HV]. unfold from_uint512_bytes. rewrite <- HV. apply from_uint512_rep, HL.
  Qed.
  Lemma from_uint128_rep v : 0 <= v < 2 ^ 128 -> v < p -> rep (from_uint128 c v) v.
  Proof.
    intros Hv Hp. unfold from_uint128.
    pose proof (Z.div_mod v (2 ^ 64) ltac:(lia)) as D. pose proof (Z.mod_pos_bound v (2 ^ 64) ltac:(lia)) as B.
    assert (Q : 0 <= v / 2 ^ 64 < 2 ^ 64) by (split; [apply Z.div_pos; lia|apply Z.div_lt_upper_bound; lia]).
    assert (L : limbs 64 4 [v mod 2 ^ 64; v / 2 ^ 64; 0; 0]) by (split; [reflexivity|repeat constructor; lia]).
    assert (E : val 64 [v mod 2 ^ 64; v / 2 ^ 64; 0; 0] = v) by (cbn [val]; lia).
    pose proof (pf_of_bigint_rep 3 c G _ L) as P. rewrite E in P. apply P. exact Hp.
  Qed.
  Lemma generate_rep {S} (next : S -> option (Z * S)) s ws s' : Forall (fun w => 0 <= w < 2 ^ 32) ws ->
    draw next 16 s = Some (ws, s') -> exists e, generate next c s = Some (e, s') /\ rep e (val 32 ws).
  Proof.
    intros F D. destruct (draw_u64 next 8 s ws s' F D) as (l & El & Ll & Ev).
    exists (from_uint512 c l). unfold generate. rewrite El. split; [reflexivity|]. rewrite <- Ev. apply from_uint512_rep, Ll.
  Qed.
End field.
