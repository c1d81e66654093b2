(** The point encoding. *)
From Coq Require Import ZArith Znumtheory Zpow_facts List Bool Arith Lia.
From Verif Require Import Field Zp BigIntModel BigIntSpec BigIntProof BigIntProof2 SqrtModel SqrtSpec SqrtProof SqrtProof2 SqrtProof3 PointSerModel PointSerSpec.
Import ListNotations.
Open Scope Z_scope.

Lemma limbs_of_ok n v : limbs64 n (limbs_of n v).
Proof.
  unfold limbs_of. split; [rewrite map_length, seq_length; reflexivity|]. apply Forall_forall. intros x Hx. apply in_map_iff in Hx as (i & <- & _).
  apply Z.mod_pos_bound. lia.
Qed.
Lemma limbs_of_val : forall n v, 0 <= v < 2 ^ (64 * Z.of_nat n) -> val64 (limbs_of n v) = v.
Proof.
  assert (G : forall n v k, 0 <= v -> val64 (map (fun i => (v / 2 ^ (64 * Z.of_nat i)) mod 2 ^ 64) (seq k n)) = (v / 2 ^ (64 * Z.of_nat k)) mod 2 ^ (64 * Z.of_nat n)).
  { induction n as [|n IH]; intros v k Hv; [cbn [seq map val]; rewrite Z.mul_0_r, Z.pow_0_r, Z.mod_1_r; reflexivity|].
    cbn [seq map val]. rewrite IH by exact Hv. replace (64 * Z.of_nat (S k)) with (64 * Z.of_nat k + 64) by lia.
    rewrite Z.pow_add_r by lia. rewrite <- Z.div_div by lia. set (u := v / 2 ^ (64 * Z.of_nat k)).
    replace (64 * Z.of_nat (S n)) with (64 + 64 * Z.of_nat n) by lia. rewrite (Z.pow_add_r 2 64) by lia. rewrite Z.rem_mul_r by lia. reflexivity. }
  intros n v Hv. unfold limbs_of. rewrite G by lia. rewrite Z.mul_0_r, Z.pow_0_r, Z.div_1_r. apply Z.mod_small. exact Hv.
Qed.
Lemma limbs_of_even n v : (0 < n)%nat -> bi_is_even (limbs_of n v) = Z.even v /\ bi_is_odd (limbs_of n v) = Z.odd v.
Proof.
  intros Hn. destruct n as [|n]; [lia|]. unfold limbs_of. cbn [seq map bi_is_even bi_is_odd]. rewrite Z.mul_0_r, Z.pow_0_r, Z.div_1_r.
  replace ((v mod 2 ^ 64) mod 2) with (v mod 2).
  - rewrite Zmod_odd, <- Z.negb_odd. destruct (Z.odd v); split; reflexivity.
  - change (2 ^ 64) with (2 * 2 ^ 63). rewrite Z.rem_mul_r by lia. rewrite Z.mul_comm, Z_mod_plus_full, Z.mod_mod by lia. reflexivity.
Qed.
Lemma set_last_snoc f l b : set_last f (l ++ [b]) = l ++ [f b].
Proof. unfold set_last. rewrite removelast_last, last_last. reflexivity. Qed.
(** The bytes of a value: the last one on its own. *)
Lemma bytes_split n v : (0 < n)%nat -> 0 <= v < 2 ^ (64 * Z.of_nat n) ->
  exists l, bi_to_bytes_le (limbs_of n v) = l ++ [v / 2 ^ (64 * Z.of_nat n - 8)] /\ length l = (8 * n - 1)%nat /\
  limbs 8 (8 * n) (l ++ [v / 2 ^ (64 * Z.of_nat n - 8)]) /\ val 8 (l ++ [v / 2 ^ (64 * Z.of_nat n - 8)]) = v.
Proof.
  intros Hn Hv. destruct (bytes_roundtrip n (limbs_of n v) (limbs_of_ok n v)) as (HL & HV & _). rewrite limbs_of_val in HV by exact Hv.
  assert (E : bi_to_bytes_le (limbs_of n v) = map (byte_of (limbs_of n v)) (seq 0 (8 * n - 1)) ++ [v / 2 ^ (64 * Z.of_nat n - 8)]).
  { unfold bi_to_bytes_le. rewrite (limbs_length _ _ _ (limbs_of_ok n v)). replace (8 * n)%nat with (8 * n - 1 + 1)%nat at 1 by lia. rewrite seq_app, map_app. f_equal.
    cbn [seq map]. rewrite (byte_of_val n) by apply limbs_of_ok. rewrite limbs_of_val by exact Hv. replace (8 * Z.of_nat (0 + (8 * n - 1))) with (64 * Z.of_nat n - 8) by lia.
    rewrite Z.mod_small; [reflexivity|]. split; [apply Z.div_pos; [lia|apply Z.pow_pos_nonneg; lia]|]. apply Z.div_lt_upper_bound; [apply Z.pow_pos_nonneg; lia|].
    rewrite <- Z.pow_add_r by lia. replace (64 * Z.of_nat n - 8 + 8) with (64 * Z.of_nat n) by lia. lia. }
  eexists. rewrite E in *. split; [reflexivity|]. split; [rewrite map_length, seq_length; reflexivity|]. split; assumption.
Qed.
Lemma last_bound n v k : (0 < n)%nat -> 0 <= k <= 8 -> 0 <= v < 2 ^ (64 * Z.of_nat n - k) -> 0 <= v / 2 ^ (64 * Z.of_nat n - 8) < 2 ^ (8 - k).
Proof.
  intros Hn Hk Hv. split; [apply Z.div_pos; [lia|apply Z.pow_pos_nonneg; lia]|]. apply Z.div_lt_upper_bound; [apply Z.pow_pos_nonneg; lia|].
  rewrite <- Z.pow_add_r by lia. replace (64 * Z.of_nat n - 8 + (8 - k)) with (64 * Z.of_nat n - k) by lia. lia.
Qed.
(** Flags in a byte: decided by running through the 256 bytes. *)
Definition byte_check (f : Z -> bool) : bool := forallb f (map Z.of_nat (seq 0 256)).
Lemma byte_check_sound f : byte_check f = true -> forall b, 0 <= b < 256 -> f b = true.
Proof.
  intros H b Hb. unfold byte_check in H. rewrite forallb_forall in H. apply H. apply in_map_iff. exists (Z.to_nat b). split; [lia|]. apply in_seq. lia.
Qed.
Definition flagged (legacy odd : bool) (b : Z) : Z := trunc 8 (Z.lor b (trunc 8 (Z.shiftl (if odd then 1 else 0) (if legacy then 7 else 6)))).
Lemma flags_legacy odd b : 0 <= b < 2 ^ 7 ->
  negb (Z.shiftr (flagged true odd b) 7 =? 0) = odd /\ Z.land (flagged true odd b) 127 = b.
Proof.
  intros Hb. pose proof (byte_check_sound (fun b => (128 <=? b) || (Bool.eqb (negb (Z.shiftr (flagged true odd b) 7 =? 0)) odd && (Z.land (flagged true odd b) 127 =? b)))) as S.
  specialize (S ltac:(destruct odd; vm_compute; reflexivity) b ltac:(lia)). cbv beta in S. destruct (Z.leb_spec 128 b); [lia|]. cbn [orb] in S.
  apply andb_prop in S as [S1 S2]. apply Bool.eqb_prop in S1. apply Z.eqb_eq in S2. auto.
Qed.
Lemma flags_new odd b : 0 <= b < 2 ^ 6 ->
  negb (Z.shiftr (flagged false odd b) 7 =? 0) = false /\ negb (Z.land (Z.shiftr (flagged false odd b) 6) 1 =? 0) = odd /\ Z.land (flagged false odd b) 63 = b /\
  negb (Z.shiftr (Z.lor (flagged false odd b) 128) 7 =? 0) = true /\ negb (Z.land (Z.shiftr (Z.lor (flagged false odd b) 128) 6) 1 =? 0) = odd /\ Z.land (Z.lor (flagged false odd b) 128) 63 = b.
Proof.
  intros Hb. pose proof (byte_check_sound (fun b => (64 <=? b) || (
    Bool.eqb (negb (Z.shiftr (flagged false odd b) 7 =? 0)) false && Bool.eqb (negb (Z.land (Z.shiftr (flagged false odd b) 6) 1 =? 0)) odd && (Z.land (flagged false odd b) 63 =? b) &&
    Bool.eqb (negb (Z.shiftr (Z.lor (flagged false odd b) 128) 7 =? 0)) true && Bool.eqb (negb (Z.land (Z.shiftr (Z.lor (flagged false odd b) 128) 6) 1 =? 0)) odd && (Z.land (Z.lor (flagged false odd b) 128) 63 =? b)))) as S.
  specialize (S ltac:(destruct odd; vm_compute; reflexivity) b ltac:(lia)). cbv beta in S. destruct (Z.leb_spec 64 b); [lia|]. cbn [orb] in S.
  apply andb_prop in S as [S S6]. apply andb_prop in S as [S S5]. apply andb_prop in S as [S S4]. apply andb_prop in S as [S S3]. apply andb_prop in S as [S1 S2].
  apply Bool.eqb_prop in S1, S2, S4, S5. apply Z.eqb_eq in S3, S6. auto 10.
Qed.

Section P.
  Variable p : Z.
  Hypothesis Hp : prime p.
  Hypothesis Hodd : 2 < p.
  Variable n : nat.
  Hypothesis Hn : (0 < n)%nat.
  Let F : fld := Zp p Hp.
  Variables (sqrt : F -> option F) (az : bool) (ca cb : F).

  Lemma is_even_ext (x : F) odd : create_from_x sqrt (fun y => bi_is_even (limbs_of n (zval p y))) az ca cb x odd = create_from_x sqrt (even_rep p) az ca cb x odd.
  Proof.
    unfold create_from_x, get_ys. cbv zeta. destruct (sqrt _) as [y|]; [|reflexivity]. rewrite (proj1 (limbs_of_even n (zval p y) Hn)). reflexivity.
  Qed.
  (** Reading the bytes of [v] with a last byte whose masked value is that of [v]. *)
  Lemma read_value (legacy : bool) v l b b0 : 0 <= v < 2 ^ (64 * Z.of_nat n) -> length l = (8 * n - 1)%nat -> limbs 8 (8 * n) (l ++ [b0]) -> val 8 (l ++ [b0]) = v ->
    Z.land b (if legacy then 127 else 63) = b0 ->
    read_point p Hp n sqrt az ca cb legacy (l ++ [b]) =
      (if feqb (mkz p Hp v : F) f0 && (legacy || negb (Z.shiftr b 7 =? 0)) then Some (f0 : F, f0 : F)
       else create_from_x sqrt (even_rep p) az ca cb (mkz p Hp v) (if legacy then negb (Z.shiftr b 7 =? 0) else negb (Z.land (Z.shiftr b 6) 1 =? 0))).
  Proof.
    intros Hv Hl HL HV Hb. unfold read_point. assert (LB : length (l ++ [b]) = (8 * n)%nat) by (rewrite app_length, Hl; cbn [length]; lia).
    rewrite LB, Nat.ltb_irrefl. rewrite <- LB, firstn_all. cbv zeta. rewrite last_last, set_last_snoc, Hb.
    destruct (from_bytes_correct n (l ++ [b0])) as [HF _]; [exact (proj2 HL)|].
    destruct (HF ltac:(rewrite (limbs_length _ _ _ HL); lia)) as (a & Ea & _ & Va). unfold bi_from_bytes_le. rewrite Ea, Va, HV, is_even_ext. reflexivity.
  Qed.

  Lemma mkz_zval (x : F) : (mkz p Hp (zval p x) : F) = x.
  Proof. apply zp_eq. rewrite zval_mkz. apply Z.mod_small. apply zval_range. Qed.
  Lemma mkz_zval_p (x : F) : (mkz p Hp (zval p x + p) : F) = x.
  Proof. apply zp_eq. rewrite zval_mkz. replace (zval p x + p) with (zval p x + 1 * p) by lia. rewrite Z_mod_plus_full. apply Z.mod_small. apply zval_range. Qed.
  Lemma odd_neg (y : F) : Z.odd (zval p y) = negb (even_rep p y).
  Proof. unfold even_rep. rewrite Z.negb_even. reflexivity. Qed.
  Lemma zeros_snoc k : repeat 0 (S k) = repeat 0 k ++ [0].
  Proof. induction k; [reflexivity|]. change (0 :: repeat 0 (S k) = (0 :: repeat 0 k) ++ [0]). rewrite IHk. reflexivity. Qed.
  Lemma zeros_val k : val 8 (repeat 0 k) = 0. Proof. induction k; [reflexivity|]. cbn [repeat val]. rewrite IHk. reflexivity. Qed.
  Lemma zeros_limbs k : limbs 8 k (repeat 0 k).
  Proof. split; [apply repeat_length|]. apply Forall_forall. intros x Hx. apply repeat_spec in Hx. lia. Qed.
  Lemma zero_val : zval p (f0 : F) = 0. Proof. apply (zval_0 p Hp Hodd). Qed.
  Lemma mkz_0 : (mkz p Hp 0 : F) = f0. Proof. reflexivity. Qed.
  Lemma read_zero legacy : read_point p Hp n sqrt az ca cb legacy (write_point p Hp n legacy f0 f0) = Some (f0 : F, f0 : F).
  Proof.
    unfold write_point. rewrite feqb_refl. cbn [andb]. replace (8 * n)%nat with (S (8 * n - 1)) by lia. rewrite zeros_snoc.
    pose proof (zeros_limbs (8 * n)) as HL. replace (8 * n)%nat with (S (8 * n - 1)) in HL at 2 by lia. rewrite zeros_snoc in HL.
    assert (HV : val 8 (repeat 0 (8 * n - 1) ++ [0]) = 0) by (rewrite <- zeros_snoc; apply zeros_val).
    assert (0 <= 0 < 2 ^ (64 * Z.of_nat n)) by (split; [lia|apply Z.pow_pos_nonneg; lia]).
    destruct legacy; [|rewrite set_last_snoc].
    - rewrite (read_value true 0 _ 0 0) by (try assumption; try reflexivity; apply repeat_length). rewrite mkz_0, feqb_refl. reflexivity.
    - rewrite (read_value false 0 _ _ 0) by (try assumption; try reflexivity; apply repeat_length). rewrite mkz_0, feqb_refl. reflexivity.
  Qed.
  Lemma write_nonzero legacy (x y : F) : ~ (x = f0 /\ y = f0) -> 0 <= zval p x < 2 ^ (64 * Z.of_nat n) ->
    exists l, write_point p Hp n legacy x y = l ++ [flagged legacy (negb (even_rep p y)) (zval p x / 2 ^ (64 * Z.of_nat n - 8))] /\ length l = (8 * n - 1)%nat /\
      limbs 8 (8 * n) (l ++ [zval p x / 2 ^ (64 * Z.of_nat n - 8)]) /\ val 8 (l ++ [zval p x / 2 ^ (64 * Z.of_nat n - 8)]) = zval p x.
  Proof.
    intros N0 Hx. unfold write_point. assert (E : feqb x f0 && feqb y f0 = false).
    { destruct (feqb x f0) eqn:E1; [|reflexivity]. destruct (feqb y f0) eqn:E2; [|reflexivity]. apply feqb_eq in E1, E2. tauto. }
    match goal with |- context [if ?c then _ else _] => replace c with false by (symmetry; exact E) end. destruct (bytes_split n (zval p x) Hn Hx) as (l & El & Ll & HL & HV). exists l. split; [|auto]. cbv zeta. rewrite El, set_last_snoc.
    rewrite (proj2 (limbs_of_even n (zval p y) Hn)), odd_neg. reflexivity.
  Qed.
  Lemma bound_le k v : 0 <= k -> 0 <= v < 2 ^ (64 * Z.of_nat n - k) -> 0 <= v < 2 ^ (64 * Z.of_nat n).
  Proof. intros Hk Hv. pose proof (Z.pow_le_mono_r 2 (64 * Z.of_nat n - k) (64 * Z.of_nat n) ltac:(lia) ltac:(lia)). lia. Qed.

  (** A point with x = 0 comes back as the point at infinity in the legacy format. *)
  Lemma legacy_zero (y : F) : p <= 2 ^ (64 * Z.of_nat n - 1) -> y <> f0 ->
    read_point p Hp n sqrt az ca cb true (write_point p Hp n true (f0 : F) y) = Some (f0 : F, f0 : F).
  Proof.
    intros HB Hy. assert (Z0 : zval p (f0 : F) = 0) by apply (zval_0 p Hp Hodd).
    assert (HX : 0 <= zval p (f0 : F) < 2 ^ (64 * Z.of_nat n - 1)) by (rewrite Z0; lia).
    pose proof (bound_le 1 _ ltac:(lia) HX) as HX2. destruct (write_nonzero true f0 y ltac:(tauto) HX2) as (l & EW & Ll & HL & HV). change (f0 : Zp p Hp) with (f0 : F). rewrite EW.
    pose proof (last_bound n _ 1 Hn ltac:(lia) HX) as LB. set (b0 := zval p (f0 : F) / 2 ^ (64 * Z.of_nat n - 8)) in *.
    destruct (flags_legacy (negb (even_rep p y)) b0 LB) as [F1 F2]. rewrite (read_value true (zval p (f0 : F)) l _ b0) by assumption. rewrite mkz_zval, feqb_refl. reflexivity.
  Qed.
  (** Without a spare bit for the flag the value read is the one with the bit removed. *)
  Lemma new_overflow (x y : F) : zval p x < 2 ^ (64 * Z.of_nat n) -> 2 ^ (64 * Z.of_nat n - 2) <= zval p x ->
    read_point p Hp n sqrt az ca cb false (write_point p Hp n false x y) <> Some (x, y).
  Proof.
    intros HB HL2 E. pose proof (zval_range p x) as R.
    assert (0 < 2 ^ (64 * Z.of_nat n - 2)) by (apply Z.pow_pos_nonneg; lia).
    assert (N0 : ~ (x = f0 /\ y = f0)). { intros [-> _]. rewrite zero_val in HL2. lia. }
    destruct (write_nonzero false x y N0 ltac:(lia)) as (l & EW & Ll & HL & HV). rewrite EW in E. set (b0 := zval p x / 2 ^ (64 * Z.of_nat n - 8)) in *. set (b := flagged false (negb (even_rep p y)) b0) in *.
    assert (B : 0 <= Z.land b 63 < 2 ^ 6).
    { change 63 with (Z.ones 6). rewrite Z.land_ones by lia. apply Z.mod_pos_bound. lia. }
    assert (HLL : limbs 8 (8 * n) (l ++ [Z.land b 63])).
    { destruct HL as [H1 H2]. split; [rewrite app_length in *; exact H1|]. apply Forall_app in H2 as [H2 _]. apply Forall_app. split; [exact H2|]. constructor; [lia|constructor]. }
    pose proof (val_bound 8 _ _ ltac:(lia) HLL) as VB. replace (8 * Z.of_nat (8 * n)) with (64 * Z.of_nat n) in VB by lia.
    rewrite (read_value false _ l b (Z.land b 63) VB Ll HLL eq_refl eq_refl) in E.
    assert (VV : val 8 (l ++ [Z.land b 63]) < 2 ^ (64 * Z.of_nat n - 2)).
    { rewrite val_app by lia. cbn [val]. rewrite Z.mul_0_r, Z.add_0_r, Ll. replace (8 * Z.of_nat (8 * n - 1)) with (64 * Z.of_nat n - 8) by lia.
      assert (LL : limbs 8 (8 * n - 1) l) by (split; [exact Ll|]; apply (Forall_app _ l [b0]); exact (proj2 HL)).
      pose proof (val_bound 8 _ _ ltac:(lia) LL) as V1. replace (8 * Z.of_nat (8 * n - 1)) with (64 * Z.of_nat n - 8) in V1 by lia.
      replace (64 * Z.of_nat n - 2) with (64 * Z.of_nat n - 8 + 6) by lia. rewrite Z.pow_add_r by lia. change (2 ^ 6) with 64 in *. nia. }
    set (v := val 8 (l ++ [Z.land b 63])) in *.
    assert (EX : (mkz p Hp v : F) = x \/ x = f0).
    { destruct (feqb (mkz p Hp v : F) f0 && (false || negb (Z.shiftr b 7 =? 0))).
      - injection E as E1 E2. right. symmetry. exact E1.
      - left. unfold create_from_x in E. destruct (get_ys _ _ _ _ _ _) as [[ey oy]|]; [|discriminate]. injection E as E1 _. exact E1. }
    destruct EX as [EX|EX].
    - apply (f_equal (zval p)) in EX. rewrite zval_mkz in EX. assert (v mod p <= v) by (apply Z.mod_le; lia). lia.
    - rewrite EX, zero_val in HL2. lia.
  Qed.
  Hypothesis Hsqrt : square_root sqrt.
  Hypothesis Haz : az = true -> ca = f0.
  Lemma roundtrip_point legacy (x y : F) : p <= 2 ^ (64 * Z.of_nat n - flag_bits legacy) -> curve_point ca cb x y -> (legacy = true -> x = f0 -> y = f0) ->
    read_point p Hp n sqrt az ca cb legacy (write_point p Hp n legacy x y) = Some (x, y).
  Proof.
    intros HB HC HZ. assert (D : {x = f0 /\ y = f0} + {~ (x = f0 /\ y = f0)}).
    { destruct (f_dec F x f0); destruct (f_dec F y f0); tauto. }
    destruct D as [[-> ->]|N0]; [apply read_zero|]. assert (HO : on_curve ca cb x y) by (destruct HC; tauto).
    pose proof (zval_range p x) as R. assert (HX : 0 <= zval p x < 2 ^ (64 * Z.of_nat n - flag_bits legacy)) by lia.
    pose proof (bound_le (flag_bits legacy) _ ltac:(destruct legacy; cbn [flag_bits]; lia) HX) as HX2.
    destruct (write_nonzero legacy x y N0 HX2) as (l & -> & Ll & HL & HV).
    pose proof (last_bound n _ (flag_bits legacy) Hn ltac:(destruct legacy; cbn [flag_bits]; lia) HX) as LB.
    set (b0 := zval p x / 2 ^ (64 * Z.of_nat n - 8)) in *. set (odd := negb (even_rep p y)).
    destruct legacy; cbn [flag_bits] in LB.
    - destruct (flags_legacy odd b0 LB) as [F1 F2]. rewrite (read_value true (zval p x) l _ b0) by assumption. rewrite mkz_zval, F1.
      rewrite neqb by (intros E; apply N0; split; [exact E|apply HZ; auto]). cbn [andb]. apply (create_roundtrip p Hp Hodd sqrt Hsqrt az ca cb x y Haz HO).
    - destruct (flags_new odd b0 LB) as (F1 & F2 & F3 & _). rewrite (read_value false (zval p x) l _ b0) by assumption. rewrite mkz_zval, F1, F2.
      rewrite andb_false_r. apply (create_roundtrip p Hp Hodd sqrt Hsqrt az ca cb x y Haz HO).
  Qed.
  (** The bytes of x + p (when they fit) are another encoding of the same point. *)
  Lemma second_encoding legacy (x y : F) : zval p x + p < 2 ^ (64 * Z.of_nat n - flag_bits legacy) -> on_curve ca cb x y -> (x = f0 -> legacy = false) ->
    exists bytes, bytes <> write_point p Hp n legacy x y /\ length bytes = (8 * n)%nat /\ read_point p Hp n sqrt az ca cb legacy bytes = Some (x, y).
  Proof.
    intros HB HO HZ. pose proof (zval_range p x) as R. assert (HX : 0 <= zval p x + p < 2 ^ (64 * Z.of_nat n - flag_bits legacy)) by lia.
    pose proof (bound_le (flag_bits legacy) _ ltac:(destruct legacy; cbn [flag_bits]; lia) HX) as HX2.
    destruct (bytes_split n _ Hn HX2) as (l & El & Ll & HL & HV).
    pose proof (last_bound n _ (flag_bits legacy) Hn ltac:(destruct legacy; cbn [flag_bits]; lia) HX) as LB.
    set (b0 := (zval p x + p) / 2 ^ (64 * Z.of_nat n - 8)) in *. set (odd := negb (even_rep p y)).
    assert (RD : read_point p Hp n sqrt az ca cb legacy (l ++ [flagged legacy odd b0]) = Some (x, y)).
    { destruct legacy; cbn [flag_bits] in LB.
      - destruct (flags_legacy odd b0 LB) as [F1 F2]. rewrite (read_value true (zval p x + p) l _ b0) by assumption. rewrite mkz_zval_p, F1.
        rewrite neqb by (intros E; specialize (HZ E); discriminate). cbn [andb]. apply (create_roundtrip p Hp Hodd sqrt Hsqrt az ca cb x y Haz HO).
      - destruct (flags_new odd b0 LB) as (F1 & F2 & F3 & _). rewrite (read_value false (zval p x + p) l _ b0) by assumption. rewrite mkz_zval_p, F1, F2.
        rewrite andb_false_r. apply (create_roundtrip p Hp Hodd sqrt Hsqrt az ca cb x y Haz HO). }
    exists (l ++ [flagged legacy odd b0]). split; [|split; [rewrite app_length, Ll; cbn [length]; lia|exact RD]].
    intros E. destruct (f_dec F x f0) as [Ex|Nx].
    - specialize (HZ Ex). subst legacy. destruct (f_dec F y f0) as [Ey|Ny].
      + (* the infinity encoding has its flag set *)
        unfold write_point in E. rewrite Ex, Ey, feqb_refl in E. cbn [andb] in E. replace (8 * n)%nat with (S (8 * n - 1)) in E by lia. rewrite zeros_snoc, set_last_snoc in E.
        apply app_inj_tail in E as [_ E]. destruct (flags_new odd b0 LB) as (F1 & _). rewrite E in F1. discriminate.
      + assert (X0 : 0 <= zval p x < 2 ^ (64 * Z.of_nat n)) by lia. destruct (write_nonzero false x y ltac:(tauto) X0) as (l' & E' & Ll' & HL' & HV').
        rewrite E' in E. apply app_inj_tail in E as [-> Eb].
        assert (X1 : 0 <= zval p x < 2 ^ (64 * Z.of_nat n - 2)) by (cbn [flag_bits] in HX; lia). pose proof (last_bound n _ 2 Hn ltac:(lia) X1) as LB'. cbn [flag_bits] in LB.
        destruct (flags_new odd b0 LB) as (_ & _ & G1 & _). fold odd in Eb. destruct (flags_new odd _ LB') as (_ & _ & G2 & _). rewrite Eb in G1. rewrite G1 in G2. rewrite <- G2 in HV'. rewrite HV in HV'. lia.
    - assert (X0 : 0 <= zval p x < 2 ^ (64 * Z.of_nat n)) by lia. destruct (write_nonzero legacy x y ltac:(tauto) X0) as (l' & E' & Ll' & HL' & HV').
      rewrite E' in E. apply app_inj_tail in E as [-> Eb]. fold odd in Eb.
      assert (X1 : 0 <= zval p x < 2 ^ (64 * Z.of_nat n - flag_bits legacy)) by lia.
      pose proof (last_bound n _ (flag_bits legacy) Hn ltac:(destruct legacy; cbn [flag_bits]; lia) X1) as LB'.
      assert (G : b0 = zval p x / 2 ^ (64 * Z.of_nat n - 8)).
      { destruct legacy; cbn [flag_bits] in LB, LB'.
        - destruct (flags_legacy odd b0 LB) as (_ & G1). destruct (flags_legacy odd _ LB') as (_ & G2). rewrite <- G1, Eb. exact G2.
        - destruct (flags_new odd b0 LB) as (_ & _ & G1 & _). destruct (flags_new odd _ LB') as (_ & _ & G2 & _). rewrite <- G1, Eb. exact G2. }
      rewrite <- G in HV'. rewrite HV in HV'. lia.
  Qed.
  (** In the new format the infinity flag on a finite point is ignored. *)
  Lemma ignored_flag (x y : F) : p <= 2 ^ (64 * Z.of_nat n - 2) -> on_curve ca cb x y -> x <> f0 ->
    set_last (fun b => Z.lor b 128) (write_point p Hp n false x y) <> write_point p Hp n false x y /\
    read_point p Hp n sqrt az ca cb false (set_last (fun b => Z.lor b 128) (write_point p Hp n false x y)) = Some (x, y).
  Proof.
    intros HB HO Nx. pose proof (zval_range p x) as R. assert (HX : 0 <= zval p x < 2 ^ (64 * Z.of_nat n - 2)) by lia.
    pose proof (bound_le 2 _ ltac:(lia) HX) as HX2. destruct (write_nonzero false x y ltac:(tauto) HX2) as (l & -> & Ll & HL & HV).
    pose proof (last_bound n _ 2 Hn ltac:(lia) HX) as LB. set (b0 := zval p x / 2 ^ (64 * Z.of_nat n - 8)) in *. set (odd := negb (even_rep p y)).
    destruct (flags_new odd b0 LB) as (F1 & F2 & F3 & F4 & F5 & F6). rewrite set_last_snoc. split.
    - intros E. apply app_inj_tail in E as [_ E]. rewrite E in F4. rewrite F1 in F4. discriminate.
    - rewrite (read_value false (zval p x) l _ b0) by assumption. rewrite mkz_zval, F4, F5. rewrite neqb by exact Nx. cbn [andb].
      apply (create_roundtrip p Hp Hodd sqrt Hsqrt az ca cb x y Haz HO).
  Qed.
End P.
