(** Permute with the configuration built by Create is the permutation of the paper. *)
From Coq Require Import ZArith List Bool Arith Lia Ring Field Field_theory.
From Verif Require Import Field BigIntModel SemigroupModel PolyModel PoseidonModel PoseidonSpec PoseidonProof PoseidonProof2.
Import ListNotations.

Section Perm.
  Variable K : fld.
  Add Field Kps3 : (fld_theory K).
  Open Scope fld_scope.

  Lemma set_rows (g : nat -> pvec K) s c (opt : pmat K) k :
    fold_left (fun opt i => set_row i (g i) opt) (seq s c) opt k =
    if Nat.leb s k && Nat.ltb k (s + c) then g k else opt k.
  Proof.
    induction c as [|c IH].
    - cbn [seq fold_left]. destruct (Nat.leb_spec s k), (Nat.ltb_spec k (s + 0)); try lia; reflexivity.
    - rewrite seq_S, fold_left_app. cbn [fold_left]. unfold set_row at 1. rewrite IH.
      destruct (Nat.eqb_spec k (s + c)) as [->|Ne].
      + destruct (Nat.leb_spec s (s + c)), (Nat.ltb_spec (s + c) (s + S c)); try lia; reflexivity.
      + destruct (Nat.leb_spec s k), (Nat.ltb_spec k (s + c)), (Nat.ltb_spec k (s + S c)); try lia; reflexivity.
  Qed.

  Variables (n h rp : nat) (minv ark mds : pmat K).
  Let rf := (2 * h)%nat.
  Hypothesis Hh : (1 <= h)%nat.

  (** the constants carried backwards over the last d partial rounds *)
  Fixpoint carried (d : nat) : pvec K :=
    match d with
    | O => ark (h + rp)%nat
    | S d => fun k => (if Nat.eqb k 0 then 0 else mul_mat_vec n minv (carried d) k) + ark (h + rp - d - 1)%nat k
    end.
  Lemma ark_partial_loop d (opt : pmat K) : (d <= rp)%nat ->
    let r := fold_left (ark_partial n rf rp minv ark) (seq h d) (ark (h + rp)%nat, opt) in
    fst r = carried d /\
    forall k, snd r k = if Nat.ltb (h + rp - d) k && Nat.leb k (h + rp)
                        then (fun i => if Nat.eqb i 0 then mul_mat_vec n minv (carried (h + rp - k)) 0%nat else 0) else opt k.
  Proof.
    induction d as [|d IH]; intros Hd.
    - cbn [seq fold_left fst snd carried]. split; [reflexivity|]. intros k.
      destruct (Nat.ltb_spec (h + rp - 0) k), (Nat.leb_spec k (h + rp)); try lia; reflexivity.
    - rewrite seq_S, fold_left_app. cbn [fold_left]. specialize (IH ltac:(lia)). cbv zeta in IH.
      destruct (fold_left (ark_partial n rf rp minv ark) (seq h d) (ark (h + rp)%nat, opt)) as [acc o] eqn:E.
      cbn [fst snd] in IH. destruct IH as [I1 I2]. subst acc. unfold ark_partial. cbn [fst snd carried].
      replace (rf + rp - (h + d))%nat with (h + rp - d)%nat by (unfold rf; lia).
      split; [reflexivity|]. intros k. unfold set_row. destruct (Nat.eqb_spec k (h + rp - d)) as [->|Ne].
      + destruct (Nat.ltb_spec (h + rp - S d) (h + rp - d)), (Nat.leb_spec (h + rp - d) (h + rp)); try lia. cbn [andb].
        replace (h + rp - (h + rp - d))%nat with d by lia. reflexivity.
      + rewrite I2. destruct (Nat.ltb_spec (h + rp - d) k), (Nat.ltb_spec (h + rp - S d) k), (Nat.leb_spec k (h + rp)); try lia; reflexivity.
  Qed.
  (** the rows of the optimised constants *)
  Lemma optimize_rows junk :
    let opt := optimize_ark n rf rp minv ark junk in
    (forall i, opt 0%nat i = ark 0%nat i) /\
    (forall k, (1 <= k < h)%nat \/ (h + rp < k < rp + rf)%nat -> opt k = mul_mat_vec n minv (ark k)) /\
    opt h = mul_mat_vec n minv (carried rp) /\
    (forall k, (h < k <= h + rp)%nat -> opt k 0%nat = mul_mat_vec n minv (carried (h + rp - k)) 0%nat).
  Proof.
    cbv zeta. unfold optimize_ark. cbv zeta. assert (E2 : Nat.div rf 2 = h) by (unfold rf; rewrite Nat.mul_comm; apply Nat.div_mul; lia).
    rewrite E2. clear E2.
    set (o1 := fold_left (fun opt i => set_row i (mul_mat_vec n minv (ark i)) opt) (seq 1 (h - 1)) (set_row 0 (ark 0%nat) junk)).
    destruct (ark_partial_loop rp o1 ltac:(lia)) as [I1 I2].
    destruct (fold_left (ark_partial n rf rp minv ark) (seq h rp) (ark (h + rp)%nat, o1)) as [acc o2]. cbn [fst snd] in I1, I2. subst acc.
    assert (O1 : forall k, o1 k = if Nat.leb 1 k && Nat.ltb k (1 + (h - 1)) then mul_mat_vec n minv (ark k) else set_row 0 (ark 0%nat) junk k).
    { intros k. unfold o1. apply (set_rows (fun i => mul_mat_vec n minv (ark i))). }
    assert (O : forall k, fold_left (fun opt i => set_row i (mul_mat_vec n minv (ark i)) opt)
                    (seq (h + rp + 1) (rp + rf - (h + rp + 1))) (set_row h (mul_mat_vec n minv (carried rp)) o2) k =
               if Nat.leb (h + rp + 1) k && Nat.ltb k (h + rp + 1 + (rp + rf - (h + rp + 1))) then mul_mat_vec n minv (ark k)
               else set_row h (mul_mat_vec n minv (carried rp)) o2 k).
    { intros k. apply (set_rows (fun i => mul_mat_vec n minv (ark i))). }
    unfold rf in *. repeat split.
    - intros i. rewrite O. destruct (Nat.leb_spec (h + rp + 1) 0); [lia|]. cbn [andb]. unfold set_row at 1.
      destruct (Nat.eqb_spec 0 h); [lia|]. rewrite I2.
      destruct (Nat.ltb_spec (h + rp - rp) 0); [lia|]. cbn [andb]. rewrite O1. cbn [Nat.leb andb]. reflexivity.
    - intros k Hk. rewrite O.
      destruct (Nat.leb_spec (h + rp + 1) k), (Nat.ltb_spec k (h + rp + 1 + (rp + 2 * h - (h + rp + 1)))); try lia; cbn [andb]; try reflexivity.
      all: unfold set_row at 1; destruct (Nat.eqb_spec k h); [lia|]; rewrite I2;
        destruct (Nat.ltb_spec (h + rp - rp) k); [lia|]; cbn [andb]; rewrite O1;
        destruct (Nat.leb_spec 1 k), (Nat.ltb_spec k (1 + (h - 1))); try lia; reflexivity.
    - rewrite O. destruct (Nat.leb_spec (h + rp + 1) h); [lia|]. cbn [andb]. unfold set_row. rewrite Nat.eqb_refl. reflexivity.
    - intros k Hk. rewrite O. destruct (Nat.leb_spec (h + rp + 1) k); [lia|]. cbn [andb]. unfold set_row.
      destruct (Nat.eqb_spec k h); [lia|]. rewrite I2.
      destruct (Nat.ltb_spec (h + rp - rp) k), (Nat.leb_spec k (h + rp)); try lia. cbn [andb Nat.eqb]. reflexivity.
  Qed.

  (** ** the rounds *)
  Variable alpha : Z.
  Hypothesis Halpha : (0 <= alpha < 2 ^ 32)%Z.
  Hypothesis HM : inverse_of n mds minv.
  Notation a := (Z.to_nat alpha).
  Notation T := (poseidon_round n rf rp a mds ark).

  Lemma half : Nat.div rf 2 = h.
  Proof. unfold rf. rewrite Nat.mul_comm. apply Nat.div_mul. lia. Qed.
  Lemma round_full x r i : (r < h \/ h + rp <= r)%nat -> (i < n)%nat ->
    T x r i = mv n mds (sbox_full alpha (ark_full ark r x)) i.
  Proof.
    intros Hr Hi. unfold poseidon_round. rewrite half.
    assert (E : (Nat.ltb r h || Nat.leb (h + rp) r)%bool = true).
    { destruct (Nat.ltb_spec r h), (Nat.leb_spec (h + rp) r); try lia; reflexivity. }
    rewrite E. cbn [orb]. apply mv_ext; [intros; reflexivity|]. intros j _. unfold sbox_full, ark_full.
    rewrite sbox_pow by exact Halpha. reflexivity.
  Qed.
  Lemma round_part x r i : (h <= r < h + rp)%nat -> (i < n)%nat ->
    T x r i = mv n mds (sbox_part alpha (ark_full ark r x)) i.
  Proof.
    intros Hr Hi. unfold poseidon_round. rewrite half.
    assert (E : (Nat.ltb r h || Nat.leb (h + rp) r)%bool = false).
    { destruct (Nat.ltb_spec r h), (Nat.leb_spec (h + rp) r); try lia; reflexivity. }
    rewrite E. cbn [orb]. apply mv_ext; [intros; reflexivity|]. intros j _. unfold sbox_part, ark_full.
    destruct (Nat.eqb j 0); [rewrite sbox_pow by exact Halpha|]; reflexivity.
  Qed.
  Lemma mul_minv v i : (i < n)%nat -> mv n mds (mul_mat_vec n minv v) i = v i.
  Proof.
    intros Hi. rewrite (mv_ext K n _ mds _ (mv n minv v)).
    - apply (inverse_r K n mds minv v HM i Hi).
    - intros; reflexivity.
    - intros j _. apply mul_mat_vec_mv.
  Qed.

  Variable c : pconfig K.
  Hypothesis Hmds : pc_mds c = mds.
  Lemma full_rounds s k v X : veq K n v (fun i => X i + ark s i) ->
    (forall r, (s < r <= s + k)%nat -> pc_ark c r = mul_mat_vec n minv (ark r)) ->
    (forall r, (s <= r < s + k)%nat -> (r < h \/ h + rp <= r)%nat) ->
    veq K n (fold_left (opt_full n alpha c) (seq (S s) k) v) (fun i => fold_left T (seq s k) X i + ark (s + k)%nat i).
  Proof.
    intros Hv Hark Hf. induction k as [|k IH].
    - cbn [seq fold_left]. rewrite Nat.add_0_r. exact Hv.
    - specialize (IH ltac:(intros; apply Hark; lia) ltac:(intros; apply Hf; lia)).
      rewrite !seq_S, !fold_left_app. cbn [fold_left]. intros i Hi. unfold opt_full at 1. rewrite mul_mat_vec_mv, Hmds.
      set (u := fold_left (opt_full n alpha c) (seq (S s) k) v) in *. set (X' := fold_left T (seq s k) X) in *.
      rewrite round_full by (try apply Hf; lia).
      rewrite (mv_ext K n _ mds _ (fun j => sbox_full alpha (ark_full ark (s + k) X') j + mul_mat_vec n minv (ark (S s + k)%nat) j)).
      + rewrite mv_add, mul_minv by exact Hi. replace (S s + k)%nat with (s + S k)%nat by lia. reflexivity.
      + intros; reflexivity.
      + intros j Hj. unfold ark_full at 1. unfold sbox_full. rewrite IH by exact Hj. rewrite Hark by lia. reflexivity.
  Qed.

  (** the partial rounds of the paper against the dense rounds with the carried constants *)
  Lemma dense_rounds (ds : nat -> K) (dn : nat -> pvec K) v X k : (k <= rp)%nat -> (1 <= n)%nat ->
    dn 0%nat = v -> (forall k, dn (S k) = add0 K (ds k) (sbox_part alpha (mv n mds (dn k)))) ->
    (forall j, (j < rp)%nat -> ds j = mul_mat_vec n minv (carried (rp - 1 - j)) 0%nat) ->
    veq K n (mv n mds v) (fun i => X i + carried rp i) ->
    veq K n (mv n mds (dn k)) (fun i => fold_left T (seq h k) X i + carried (rp - k) i).
  Proof.
    intros Hk Hn D0 DS Hds Hv. induction k as [|k IH].
    - rewrite D0. cbn [seq fold_left]. rewrite Nat.sub_0_r. exact Hv.
    - specialize (IH ltac:(lia)). rewrite seq_S, fold_left_app. cbn [fold_left]. rewrite DS. intros i Hi.
      rewrite round_part by lia. set (X' := fold_left T (seq h k) X) in *.
      rewrite (mv_ext K n _ mds _ (fun j => sbox_part alpha (ark_full ark (h + k) X') j + mul_mat_vec n minv (carried (rp - S k)) j)).
      + rewrite mv_add, mul_minv by exact Hi. reflexivity.
      + intros; reflexivity.
      + intros j Hj. unfold add0, sbox_part, ark_full. rewrite IH by exact Hj.
        replace (rp - k)%nat with (S (rp - S k)) by lia. cbn [carried].
        replace (h + rp - (rp - S k) - 1)%nat with (h + k)%nat by lia.
        destruct (Nat.eqb_spec j 0) as [->|Ne].
        * rewrite (Hds k) by lia. replace (rp - 1 - k)%nat with (rp - S k)%nat by lia. f_equal. f_equal. ring.
        * ring.
  Qed.
End Perm.

Section Main.
  Variable K : fld.
  Add Field Kps4 : (fld_theory K).
  Open Scope fld_scope.

  Lemma permute_ok (inv : nat -> pmat K -> pmat K) n h rp alpha (ark mds junk : pmat K) :
    (2 <= n)%nat -> (1 <= h)%nat -> (0 <= alpha < 2 ^ 32)%Z ->
    inverts inv n -> inverts inv (n - 1) ->
    nonsingular n mds -> nonsingular (n - 1) (fun i j => mds (S i) (S j)) ->
    exists c, create_config inv n (2 * h) rp ark mds junk = Some c /\
      forall x, exists y, permute n (2 * h) rp alpha c x = Some y /\
        veq K n y (poseidon n (2 * h) rp (Z.to_nat alpha) mds ark x).
  Proof.
    intros Hn Hh Ha Hi1 Hi2 HM HB. destruct n as [|n']; [lia|]. replace (S n' - 1)%nat with n' in * by lia.
    set (minv := inv (S n') mds). pose proof (Hi1 mds HM) as HMI. fold minv in HMI.
    set (rf := (2 * h)%nat). unfold create_config, compute_sparse. fold minv. cbv zeta.
    set (opt := optimize_ark (S n') rf rp minv ark junk).
    assert (HBT : nonsingular n' (block11 (mat_transpose mds))).
    { apply (nonsingular_ext K n' (mat_transpose (fun i j => mds (S i) (S j)))); [intros; reflexivity|].
      apply (nonsingular_transpose K n' _ (inv n' (fun i j => mds (S i) (S j)))). apply Hi2. exact HB. }
    set (ds := fun j => opt (h + 1 + j)%nat 0%nat).
    destruct (sparse_loop_ok K inv n' alpha mds ltac:(lia) Hi2 ds rp (mat_transpose mds) HBT HBT) as (l & accf & El & Ll & HS).
    rewrite El. eexists. split; [reflexivity|]. intros x.
    set (c := {| pc_ark := opt; pc_mds := mds; pc_pre_sparse := mat_transpose accf; pc_sparse := rev l |}).
    destruct (optimize_rows K (S n') h rp minv ark Hh junk) as (R0 & Rf & Rh & Rp). fold rf opt in R0, Rf, Rh, Rp.
    unfold permute. cbv zeta.
    assert (E2 : Nat.div rf 2 = h) by (unfold rf; rewrite Nat.mul_comm; apply Nat.div_mul; lia). rewrite E2. change (pc_ark c) with opt.
    change (pc_pre_sparse c) with (mat_transpose accf). change (pc_mds c) with mds.
    set (T := poseidon_round (S n') rf rp (Z.to_nat alpha) mds ark).
    set (v1 := fold_left (opt_full (S n') alpha c) (seq 1 (h - 1)) (ark_full opt 0 x)).
    assert (H1 : veq K (S n') v1 (fun i => fold_left T (seq 0 (h - 1)) x i + ark (h - 1)%nat i)).
    { apply (full_rounds K (S n') h rp minv ark mds Hh alpha Ha HMI c eq_refl 0 (h - 1) (ark_full opt 0 x) x).
      - intros i _. unfold ark_full. rewrite R0. reflexivity.
      - intros r Hr. apply Rf. left. lia.
      - intros r Hr. left. lia. }
    set (v2 := ark_full opt h (sbox_full alpha v1)).
    set (X := fold_left T (seq 0 h) x).
    assert (H2 : veq K (S n') (mv (S n') mds v2) (fun i => X i + carried K (S n') h rp minv ark rp i)).
    { intros i Hi. unfold X. replace h with (S (h - 1)) at 1 by lia. rewrite seq_S, fold_left_app. cbn [fold_left Nat.add].
      unfold T at 1. rewrite (round_full K (S n') h rp ark mds Hh alpha Ha) by lia.
      rewrite (mv_ext K (S n') _ mds _ (fun j => sbox_full alpha (ark_full ark (h - 1) (fold_left T (seq 0 (h - 1)) x)) j
                                                 + mul_mat_vec (S n') minv (carried K (S n') h rp minv ark rp) j)).
      - rewrite mv_add, (mul_minv K (S n') minv mds HMI) by exact Hi. reflexivity.
      - intros; reflexivity.
      - intros j Hj. unfold v2, ark_full at 1. unfold sbox_full. rewrite H1 by exact Hj. rewrite Rh. reflexivity. }
    (* partial rounds *)
    rewrite (seq_shift_map (h + 1) rp), ofold_map.
    rewrite (ofold_ext _ (sparse_step K n' alpha (rev l) ds)).
    2:{ intros u j _. unfold opt_part, sparse_step. change (pc_sparse c) with (rev l). replace (h + 1 + j - (h + 1))%nat with j by lia.
        destruct (nth_error (rev l) j); reflexivity. }
    destruct (HS v2 (mul_mat_vec (S n') (mat_transpose accf) v2)) as (z & Ez & Hz).
    { intros i _. apply mul_mat_vec_mv. }
    rewrite Ez.
    assert (Hz2 : veq K (S n') z (fun i => fold_left T (seq h rp) X i + ark (h + rp)%nat i)).
    { intros i Hi. rewrite Hz by exact Hi.
      rewrite (mv_ext K (S n') _ mds _ (dense K n' alpha mds ds rp v2)); [|intros; reflexivity|intros j _; reflexivity].
      rewrite (dense_rounds K (S n') h rp minv ark mds Hh alpha Ha HMI ds (fun k => dense K n' alpha mds ds k v2) v2 X rp ltac:(lia) ltac:(lia) eq_refl) ; [rewrite Nat.sub_diag; reflexivity|reflexivity| |exact H2|exact Hi].
      intros j Hj. unfold ds. rewrite Rp by lia. replace (h + rp - (h + 1 + j))%nat with (rp - 1 - j)%nat by lia. reflexivity. }
    set (v3 := fold_left (opt_full (S n') alpha c) (seq (h + rp + 1) (rp + rf - (h + rp + 1))) z).
    eexists. split; [reflexivity|]. intros i Hi. rewrite mul_mat_vec_mv.
    assert (H3 : veq K (S n') v3 (fun i => fold_left T (seq (h + rp) (h - 1)) (fold_left T (seq h rp) X) i + ark (h + rp + (h - 1))%nat i)).
    { unfold v3. replace (h + rp + 1)%nat with (S (h + rp)) by lia. replace (rp + rf - S (h + rp))%nat with (h - 1)%nat by (unfold rf; lia).
      apply (full_rounds K (S n') h rp minv ark mds Hh alpha Ha HMI c eq_refl (h + rp) (h - 1) z _ Hz2).
      - intros r Hr. apply Rf. right. unfold rf. lia.
      - intros r Hr. right. lia. }
    unfold poseidon. fold T.
    assert (Es : seq 0 (rf + rp) = seq 0 h ++ seq h rp ++ seq (h + rp) (h - 1) ++ [(h + rp + (h - 1))%nat]).
    { rewrite <- (seq_S (h - 1) (h + rp)). replace (S (h - 1)) with h by lia.
      replace (rf + rp)%nat with (h + (rp + h))%nat by (unfold rf; lia). rewrite !seq_app. reflexivity. }
    rewrite Es, !fold_left_app. cbn [fold_left]. fold X. unfold T at 1.
    rewrite (round_full K (S n') h rp ark mds Hh alpha Ha) by lia.
    apply mv_ext; [intros; reflexivity|]. intros j Hj. unfold sbox_full, ark_full. rewrite H3 by exact Hj. reflexivity.
  Qed.
End Main.
