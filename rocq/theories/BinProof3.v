(** The operations of the code on values are the operations of the tower, at every level. *)
From Coq Require Import NArith List Bool Lia Ring.
From Verif Require Import BinModel BinSpec BinProof BinProof2.
Import ListNotations.
Open Scope N_scope.

Fixpoint pw (i : nat) : car T3 := match i with O => o1 T3 | S j => omul T3 g3 (pw j) end.
Lemma pw_add i j : pw (i + j) = omul T3 (pw i) (pw j).
Proof.
  induction i as [|i IH]; cbn [plus pw].
  - symmetry. apply (Rmul_1_l (oring T3)).
  - rewrite IH. apply (Rmul_assoc (oring T3)).
Qed.
Lemma enc_pw i : enc 3 (pw i) = look exp_table (N.of_nat i mod 255).
Proof.
  induction i as [|i IH].
  - cbn [pw]. rewrite enc_1. reflexivity.
  - cbn [pw]. rewrite <- (dec_enc 3 (pw i)), IH.
    assert (B : N.of_nat i mod 255 < 255) by (apply N.mod_lt; discriminate).
    pose proof (exp_step _ B) as E. apply N.eqb_eq in E. rewrite <- E. f_equal.
    rewrite Nat2N.inj_succ, <- N.add_1_r.
    rewrite <- (N.add_mod_idemp_l (N.of_nat i)) by discriminate.
    set (m := N.of_nat i mod 255) in *. clearbody m.
    destruct (N.ltb_spec 254 (m + 1)).
    + replace m with 254 by lia. reflexivity.
    + symmetry. apply N.mod_small. lia.
Qed.
Lemma log_pw x : x < 256 -> x <> 0 -> dec 3 x = pw (N.to_nat (look log_table x)) /\ look log_table x < 255.
Proof.
  intros Hx Hn. pose proof (exp_log x Hx) as E. destruct (N.eqb_spec x 0); [contradiction |]. cbn [orb] in E.
  apply andb_prop in E. destruct E as [E L]. apply N.eqb_eq in E. apply N.ltb_lt in L. split; [| exact L].
  apply (enc_inj 3). rewrite enc_dec by exact Hx. rewrite enc_pw, N2Nat.id, N.mod_small by exact L. symmetry. exact E.
Qed.
Lemma mul0l A x : omul A (o0 A) x = o0 A.
Proof. apply (ARmul_0_l (Rth_ARth (Eqsth (car A)) (Eq_ext _ _ _) (oring A))). Qed.
Lemma mul0r A x : omul A x (o0 A) = o0 A.
Proof. rewrite (Rmul_comm (oring A)). apply mul0l. Qed.
Lemma enc_nz k x : enc k x = 0 <-> x = o0 (tower k).
Proof. split; [intros E; apply (enc_inj k); rewrite enc_0; exact E | intros ->; apply enc_0]. Qed.

Lemma mul3 x y : b_mul 3 (enc 3 x) (enc 3 y) = enc 3 (omul T3 x y).
Proof.
  change (b_mul 3 (enc 3 x) (enc 3 y)) with
    (if (enc 3 x =? 0) || (enc 3 y =? 0) then 0
     else look exp_table (if 254 <? look log_table (enc 3 x) + look log_table (enc 3 y)
                          then look log_table (enc 3 x) + look log_table (enc 3 y) - 255
                          else look log_table (enc 3 x) + look log_table (enc 3 y))).
  destruct (N.eqb_spec (enc 3 x) 0) as [Ex | Nx].
  - apply enc_nz in Ex. subst. rewrite mul0l, enc_0. reflexivity.
  - destruct (N.eqb_spec (enc 3 y) 0) as [Ey | Ny].
    + apply enc_nz in Ey. subst. rewrite mul0r, enc_0. reflexivity.
    + cbn [orb]. destruct (log_pw (enc 3 x) (enc_bound 3 x) Nx) as [Px Lx].
      destruct (log_pw (enc 3 y) (enc_bound 3 y) Ny) as [Py Ly].
      rewrite dec_enc in Px, Py.
      set (i := look log_table (enc 3 x)) in *. set (j := look log_table (enc 3 y)) in *.
      clearbody i j. rewrite Px, Py, <- pw_add, enc_pw. f_equal.
      rewrite Nat2N.inj_add, !N2Nat.id.
      destruct (N.ltb_spec 254 (i + j)).
      * apply (N.mod_unique _ 255 1); lia.
      * symmetry. apply N.mod_small. lia.
Qed.

Lemma mul12 k x y : (k = 1 \/ k = 2)%nat -> do_binary_mul (enc k x) (enc k y) = enc k (omul (tower k) x y).
Proof.
  intros [-> | ->].
  - pose proof (mul_tab1 (enc 1 x) (enc_bound 1 x)) as H. rewrite forallb_forall in H.
    specialize (H (enc 1 y) (in_nums 4 _ (enc_bound 1 y))). apply N.eqb_eq in H. rewrite !dec_enc in H. exact H.
  - pose proof (mul_tab2 (enc 2 x) (enc_bound 2 x)) as H. rewrite forallb_forall in H.
    specialize (H (enc 2 y) (in_nums 16 _ (enc_bound 2 y))). apply N.eqb_eq in H. rewrite !dec_enc in H. exact H.
Qed.

Lemma alpha_S j x : let k := S (S (S j)) in
  b_alpha (S k) x = b_compose k (b_hi k x) (b_add (b_lo k x) (b_alpha k (b_hi k x))).
Proof. reflexivity. Qed.
Lemma mul_S j a b : let k := S (S (S j)) in
  b_mul (S k) a b =
  let z0 := b_mul k (b_lo k a) (b_lo k b) in
  let z1 := b_mul k (b_hi k a) (b_hi k b) in
  let z0z1 := b_add z0 z1 in
  let z2 := b_add (b_mul k (b_add (b_lo k a) (b_hi k a)) (b_add (b_lo k b) (b_hi k b))) z0z1 in
  b_compose k z0z1 (b_add z2 (b_alpha k z1)).
Proof. reflexivity. Qed.
Lemma square_S j x : let k := S (S (S j)) in
  b_square (S k) x =
  let z0 := b_square k (b_lo k x) in
  let z1 := b_square k (b_hi k x) in
  b_compose k (b_add z0 z1) (b_alpha k z1).
Proof. reflexivity. Qed.
Lemma inverse_S j x : let k := S (S (S j)) in
  b_inverse (S k) x =
  let x0 := b_lo k x in
  let x1 := b_hi k x in
  let x0x1a := b_add x0 (b_alpha k x1) in
  let delta := b_add (b_mul k x0 x0x1a) (b_square k x1) in
  match b_inverse k delta with
  | Some d => Some (b_compose k (b_mul k d x0x1a) (b_mul k d x1))
  | None => None
  end.
Proof. reflexivity. Qed.
Lemma enc_S k x0 x1 : enc (S k) (x0, x1) = b_compose k (enc k x0) (enc k x1).
Proof. reflexivity. Qed.

Lemma alpha_ok k : forall x, b_alpha k (enc k x) = enc k (omul (tower k) (oalpha (tower k)) x).
Proof.
  induction k as [|j IH]; intros x.
  - destruct x; reflexivity.
  - destruct j as [|[|[|j]]].
    + change (b_alpha 1 (enc 1 x)) with (do_binary_mul (enc 1 x) 2).
      change 2 with (generator 1). rewrite <- enc_alpha_val, mul12 by auto. f_equal. apply (Rmul_comm (oring (tower 1))).
    + change (b_alpha 2 (enc 2 x)) with (do_binary_mul (enc 2 x) 4).
      change 4 with (generator 2). rewrite <- enc_alpha_val, mul12 by auto. f_equal. apply (Rmul_comm (oring (tower 2))).
    + pose proof (alpha_tab (enc 3 x) (enc_bound 3 x)) as H. apply N.eqb_eq in H. rewrite dec_enc in H. exact H.
    + pose (k := S (S (S j))). fold k in IH, x |- *. destruct x as [x0 x1].
      rewrite (alpha_S j); fold k; clearbody k; rewrite !enc_S; cbn zeta. rewrite lo_compose, hi_compose by apply enc_bound. rewrite IH, <- enc_add.
      rewrite <- enc_S.
      f_equal. cbn [tower ext omul oalpha]. unfold emul. cbn [fst snd].
      pose proof (oring (tower k)) as R. generalize (Radd_0_l R) (Rmul_1_l R) (Radd_comm R). intros R1 R2 R3.
      rewrite !R2, !mul0l, !R1. reflexivity.
Qed.

Section Kara.
Variable A : bf.
Add Ring Ar3 : (oring A) (morphism (phi_morph A)).
Lemma karatsuba (a0 a1 b0 b1 : car A) :
  oadd A (oadd A (omul A (oadd A a0 a1) (oadd A b0 b1)) (oadd A (omul A a0 b0) (omul A a1 b1)))
    (omul A (oalpha A) (omul A a1 b1)) =
  oadd A (oadd A (omul A a0 b1) (omul A a1 b0)) (omul A (oalpha A) (omul A a1 b1)).
Proof. ring. Qed.
Lemma cross (a0 a1 : car A) : oadd A (oadd A (omul A a0 a1) (omul A a1 a0)) (omul A (oalpha A) (omul A a1 a1)) =
  omul A (oalpha A) (omul A a1 a1).
Proof. ring. Qed.
Lemma delta_alt (x0 x1 : car A) :
  oadd A (omul A x0 (oadd A x0 (omul A (oalpha A) x1))) (omul A x1 x1) = delta A x0 x1.
Proof. unfold delta. ring. Qed.
Lemma alpha_comm (x0 x1 : car A) : oadd A x0 (omul A (oalpha A) x1) = oadd A x0 (omul A x1 (oalpha A)).
Proof. ring. Qed.
Lemma inv_nz (x y : car A) : omul A x y = o1 A -> x <> o0 A.
Proof. intros E ->. rewrite mul0l in E. apply (o10 A). symmetry. exact E. Qed.
End Kara.

Lemma mul_ok k : forall x y, b_mul k (enc k x) (enc k y) = enc k (omul (tower k) x y).
Proof.
  induction k as [|j IH]; intros x y.
  - destruct x, y; reflexivity.
  - destruct j as [|[|[|j]]].
    + exact (mul12 1 x y (or_introl eq_refl)).
    + exact (mul12 2 x y (or_intror eq_refl)).
    + exact (mul3 x y).
    + pose (k := S (S (S j))). fold k in IH, x, y |- *. destruct x as [x0 x1], y as [y0 y1].
      rewrite (mul_S j); fold k; clearbody k; rewrite !enc_S; cbn zeta. rewrite !lo_compose, !hi_compose by apply enc_bound.
      rewrite <- !enc_add, !IH, <- !enc_add, alpha_ok, <- enc_add, karatsuba, <- enc_S. reflexivity.
Qed.
Lemma square_ok k : forall x, b_square k (enc k x) = enc k (omul (tower k) x x).
Proof.
  induction k as [|j IH]; intros x.
  - destruct x; reflexivity.
  - destruct j as [|[|[|j]]].
    + exact (mul12 1 x x (or_introl eq_refl)).
    + exact (mul12 2 x x (or_intror eq_refl)).
    + pose proof (square_tab (enc 3 x) (enc_bound 3 x)) as H. apply N.eqb_eq in H. rewrite dec_enc in H. exact H.
    + pose (k := S (S (S j))). fold k in IH, x |- *. destruct x as [x0 x1].
      rewrite (square_S j); fold k; clearbody k; rewrite !enc_S; cbn zeta. rewrite !lo_compose, !hi_compose by apply enc_bound.
      rewrite !IH, <- !enc_add, alpha_ok, <- enc_S. f_equal. cbn [tower ext omul]. unfold emul. cbn [fst snd]. rewrite cross. reflexivity.
Qed.
Lemma inverse_ok k : forall x,
  match b_inverse k (enc k x) with
  | None => x = o0 (tower k)
  | Some n => exists y, n = enc k y /\ omul (tower k) x y = o1 (tower k)
  end.
Proof.
  induction k as [|j IH]; intros x.
  - destruct x; cbn; [exists true; split; reflexivity | reflexivity].
  - destruct j as [|[|[|j]]].
    + change (b_inverse 1 (enc 1 x)) with (if enc 1 x =? 0 then None else Some (look inverse_table (enc 1 x))).
      pose proof (inverse_tab1 (enc 1 x) (enc_bound 1 x)) as H.
      destruct (N.eqb_spec (enc 1 x) 0) as [E | E]; [apply enc_nz, E |]. cbn [orb] in H. apply andb_prop in H.
      destruct H as [L H]. apply N.ltb_lt in L. apply N.eqb_eq in H. rewrite dec_enc in H.
      eexists. split; [symmetry; apply (enc_dec 1); exact L |]. apply (enc_inj 1). rewrite enc_1. exact H.
    + change (b_inverse 2 (enc 2 x)) with (if enc 2 x =? 0 then None else Some (look inverse_table (enc 2 x))).
      pose proof (inverse_tab2 (enc 2 x) (enc_bound 2 x)) as H.
      destruct (N.eqb_spec (enc 2 x) 0) as [E | E]; [apply enc_nz, E |]. cbn [orb] in H. apply andb_prop in H.
      destruct H as [L H]. apply N.ltb_lt in L. apply N.eqb_eq in H. rewrite dec_enc in H.
      eexists. split; [symmetry; apply (enc_dec 2); exact L |]. apply (enc_inj 2). rewrite enc_1. exact H.
    + change (b_inverse 3 (enc 3 x)) with (if enc 3 x =? 0 then None else Some (look inverse_table (enc 3 x))).
      pose proof (inverse_tab (enc 3 x) (enc_bound 3 x)) as H.
      destruct (N.eqb_spec (enc 3 x) 0) as [E | E]; [apply enc_nz, E |]. cbn [orb] in H. apply andb_prop in H.
      destruct H as [L H]. apply N.ltb_lt in L. apply N.eqb_eq in H. rewrite dec_enc in H.
      eexists. split; [symmetry; apply (enc_dec 3); exact L |]. apply (enc_inj 3). rewrite enc_1. exact H.
    + pose (k := S (S (S j))). fold k in IH, x |- *. destruct x as [x0 x1].
      rewrite (inverse_S j); fold k; clearbody k; rewrite !enc_S; cbn zeta. rewrite !lo_compose, !hi_compose by apply enc_bound.
      rewrite alpha_ok, <- enc_add, mul_ok, square_ok, <- enc_add, delta_alt.
      specialize (IH (delta (tower k) x0 x1)). destruct (b_inverse k (enc k (delta (tower k) x0 x1))) as [d |].
      * destruct IH as (y & -> & Hy). rewrite !mul_ok.
        eexists (_, _). split; [reflexivity |]. rewrite alpha_comm. apply e_inverse, Hy.
      * destruct (odec (tower (S k)) (x0, x1) (o0 (tower (S k)))) as [E | E]; [exact E |].
        exfalso. exact (delta_nz (tower k) x0 x1 E IH).
Qed.

(** ** The statements on values. *)
Ltac lift k := repeat match goal with H : values k ?a |- _ => rewrite <- (enc_dec k a) by exact H; generalize (dec k a); clear H; try clear a; intros a end.
Lemma field_at k : char2_field (values k) b_add (b_mul k).
Proof.
  pose proof (oring (tower k)) as R. split; intros.
  - rewrite <- (enc_0 k). apply enc_bound.
  - rewrite <- (enc_1 k). apply enc_bound.
  - lift k. rewrite <- enc_add. apply enc_bound.
  - lift k. rewrite mul_ok. apply enc_bound.
  - apply N.lxor_comm.
  - symmetry. apply N.lxor_assoc.
  - apply N.lxor_0_l.
  - apply N.lxor_nilpotent.
  - lift k. rewrite !mul_ok. f_equal. apply (Rmul_comm R).
  - lift k. rewrite !mul_ok. f_equal. apply (Rmul_assoc R).
  - lift k. rewrite <- (enc_1 k), mul_ok. f_equal. apply (Rmul_1_l R).
  - lift k. rewrite !mul_ok, <- !enc_add, mul_ok. f_equal. apply (Rdistr_l R).
  - destruct (oinv (tower k) (dec k a)) as (y & Hy).
    + intros E. apply enc_nz in E. rewrite enc_dec in E by assumption. contradiction.
    + exists (enc k y). split; [apply enc_bound |]. rewrite <- (enc_dec k a) by assumption. rewrite mul_ok, Hy. apply enc_1.
Qed.
Lemma generator_value k : values k (generator k).
Proof. rewrite <- enc_alpha_val. apply enc_bound. Qed.
Lemma alpha_at k a : values k a -> b_alpha k a = b_mul k (generator k) a.
Proof. intros. rewrite <- enc_alpha_val. lift k. rewrite alpha_ok, mul_ok. reflexivity. Qed.
Lemma square_at k a : values k a -> b_square k a = b_mul k a a.
Proof. intros. lift k. rewrite square_ok, mul_ok. reflexivity. Qed.
Lemma inverse_at k a : values k a ->
  match b_inverse k a with
  | None => a = 0
  | Some b => values k b /\ b_mul k a b = 1
  end.
Proof.
  intros H. pose proof (inverse_ok k (dec k a)) as I. rewrite enc_dec in I by exact H. destruct (b_inverse k a) as [n |].
  - destruct I as (y & -> & E). split; [apply enc_bound |]. rewrite <- (enc_dec k a) by exact H. rewrite mul_ok, E. apply enc_1.
  - apply enc_nz in I. rewrite enc_dec in I by exact H. exact I.
Qed.
Lemma inverse_zero k : b_inverse k 0 = None.
Proof.
  pose proof (inverse_at k 0) as I. destruct (b_inverse k 0) as [b |]; [| reflexivity].
  destruct I as [V E]; [rewrite <- (enc_0 k); apply enc_bound |]. exfalso.
  revert E. lift k. rewrite <- (enc_0 k), mul_ok, mul0l, enc_0. discriminate.
Qed.
Lemma generator_eq k :
  b_mul (S k) (generator (S k)) (generator (S k)) = b_add (b_mul (S k) (generator k) (generator (S k))) 1.
Proof.
  assert (E : generator k = enc (S k) (oalpha (tower k), o0 (tower k))).
  { cbn [enc fst snd]. rewrite enc_alpha_val, enc_0, compose_eq. lia. }
  rewrite E, <- (enc_1 (S k)), <- enc_alpha_val, !mul_ok, <- enc_add. f_equal.
  cbn [tower ext omul oalpha oadd o1]. unfold emul, eadd. cbn [fst snd].
  pose proof (oring (tower k)) as R. generalize (Radd_0_l R) (Rmul_1_l R) (Radd_comm R). intros R1 R2 R3.
  rewrite !mul0l, !mul0r, ?R2, ?R1, ?mul0r, ?(Rmul_comm R _ (o1 (tower k))), ?R2, ?R1, ?(R3 _ (o0 (tower k))), ?R1. reflexivity.
Qed.
Lemma sub_at k a b : values k a -> values k b -> b_mul (S k) a b = b_mul k a b.
Proof.
  intros. lift k. assert (E : forall x, enc k x = enc (S k) (x, o0 (tower k))).
  { intros x. cbn [enc fst snd]. rewrite enc_0, compose_eq. lia. }
  rewrite (E a), (E b), mul_ok, <- (E a), <- (E b), mul_ok, E. f_equal.
  cbn [tower ext omul]. unfold emul. cbn [fst snd].
  pose proof (oring (tower k)) as R. generalize (Radd_0_l R) (Radd_comm R). intros R1 R3.
  rewrite !mul0r, ?mul0l, ?R1, ?mul0r, ?R1, ?(R3 _ (o0 (tower k))), ?R1. reflexivity.
Qed.
Lemma halves_at k lo hi : values k lo -> values k hi ->
  b_add lo (b_mul (S k) hi (generator (S k))) = b_compose k lo hi.
Proof.
  intros. lift k. assert (E : forall x, enc k x = enc (S k) (x, o0 (tower k))).
  { intros x. cbn [enc fst snd]. rewrite enc_0, compose_eq. lia. }
  rewrite (E lo), (E hi), <- enc_alpha_val, mul_ok, <- enc_add, <- (E lo), <- (E hi).
  change (b_compose k (enc k lo) (enc k hi)) with (enc (S k) (lo, hi)). f_equal.
  cbn [tower ext omul oalpha oadd]. unfold emul, eadd. cbn [fst snd].
  pose proof (oring (tower k)) as R. generalize (Radd_0_l R) (Rmul_1_l R) (Radd_comm R). intros R1 R2 R3.
  rewrite ?mul0l, ?mul0r, ?(Rmul_comm R _ (o1 (tower k))), ?R2, ?R1, ?mul0r, ?(R3 _ (o0 (tower k))), ?R1. reflexivity.
Qed.
