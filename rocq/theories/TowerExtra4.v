(** The lemmas the property theorems of the towers are closed with, and a small tower over GF(7). *)
From Coq Require Import ZArith List Bool Arith Lia Znumtheory Ring Field Field_theory.
From Verif Require Import Field Zp BigIntModel BigIntSpec ExtFieldModel TowerModel ExtFieldSpec ExtFieldProof QuarticProof ExtFieldExtra
  ExtFieldProps TowerProof TowerSpec TowerExtra TowerExtra2 TowerExtra3.
Import ListNotations.
Open Scope fld_scope.

Section S6.
  Variable K : fld.
  Add Field Ks6 : (fld_theory K).
  Lemma sparse_fp6_correct (xi : K) (nr : K -> K) : (forall x, nr x = xi * x) -> forall (x : cubic K) (b0 b1 : K),
    cubic_to_base (fp6_mul_by_1 nr x b1) = mod_mul 3 xi (cubic_to_base x) [0; b1; 0] /\
    cubic_to_base (fp6_mul_by_01 nr x b0 b1) = mod_mul 3 xi (cubic_to_base x) [b0; b1; 0].
  Proof.
    intros Hnr x b0 b1.
    change [0; b1; 0] with (cubic_to_base (Cubic 0 b1 0)). change [b0; b1; 0] with (cubic_to_base (Cubic b0 b1 0)).
    rewrite !mod_mul_3. unfold fp6_mul_by_1, fp6_mul_by_01, cm, cubic_to_base, set_k0, set_k1, set_k2. cbn [k0 k1 k2]. rewrite !Hnr.
    split; apply list3_eq; ring.
  Qed.
End S6.
Lemma sparse_fp12_correct : forall (K : fld) (xi : K) (H : non_cube xi) (nr : K -> K), (forall x, nr x = xi * x) ->
  let C := cubic_fld K xi (fun x => xi * x) (fun x => eq_refl) H in
  let v : C := Cubic 0 1 0 in
  forall nr12 : cubic K -> cubic K, (forall x : cubic K, nr12 x = v * (x : C)) ->
  forall (c0 c1 : cubic K) (b0 b1 b3 b4 : K),
  (let r := fp12_mul_by_034 nr nr12 (c0, c1) b0 b3 b4 in
   [fst r; snd r] = mod_mul 2 v [c0 : C; c1] [Cubic b0 0 0; Cubic b3 b4 0]) /\
  (let r := fp12_mul_by_014 nr nr12 (c0, c1) b0 b1 b4 in
   [fst r; snd r] = mod_mul 2 v [c0 : C; c1] [Cubic b0 b1 0; Cubic 0 b4 0]).
Proof.
  intros K xi H nr Hnr C v nr12 H12 c0 c1 b0 b1 b3 b4.
  split; [exact (by_034 K xi H nr Hnr nr12 H12 c0 c1 b0 b3 b4)|exact (by_014 K xi H nr Hnr nr12 H12 c0 c1 b0 b1 b4)].
Qed.
Lemma sparse_fp6q_correct : forall (K : fld) (xi : K) (H : non_cube xi) (nr : K -> K), (forall x, nr x = xi * x) ->
  let C := cubic_fld K xi (fun x => xi * x) (fun x => eq_refl) H in
  let v : C := Cubic 0 1 0 in
  forall (c0 c1 : cubic K) (b0 b1 b3 b4 : K),
  (let r := fp6q_mul_by_034 nr (c0, c1) b0 b3 b4 in
   [fst r; snd r] = mod_mul 2 v [c0 : C; c1] [Cubic b0 0 0; Cubic b3 b4 0]) /\
  (let r := fp6q_mul_by_014 nr (c0, c1) b0 b1 b4 in
   [fst r; snd r] = mod_mul 2 v [c0 : C; c1] [Cubic b0 b1 0; Cubic 0 b4 0]).
Proof.
  intros K xi H nr Hnr C v c0 c1 b0 b1 b3 b4.
  split; [exact (q_by_034 K xi H nr Hnr c0 c1 b0 b3 b4)|exact (q_by_014 K xi H nr Hnr c0 c1 b0 b1 b4)].
Qed.
Lemma fp12_csq_correct (t : cfg12) (x : FP12 t) :
  x ^ (c_p (t_base t) ^ 4 - c_p (t_base t) ^ 2 + 1) = 1 -> fp12_csq t x = x * x.
Proof. exact (fp12_cyclotomic_square t x). Qed.
Lemma fp12_frob_period (t : cfg12) (x : FP12 t) (e : nat) :
  fp12_frobenius t x (e + 12) = fp12_frobenius t x e /\ fp12_frobenius t x 12 = x.
Proof.
  rewrite !fp12_frob, fp12_fin. split; [|reflexivity].
  rewrite Nat.pow_add_r, Nat.mul_comm, fpow_mul, fp12_fin. reflexivity.
Qed.

(** the concrete tower *)
Lemma c7_euler : (g7 6) ^ 3 = - f1.
Proof. apply zp_eq. vm_compute. reflexivity. Qed.
Definition c7 : cfg2 := {| c_p := 7; c_half := 3; c_prime := prime_check_sound 7 eq_refl; c_odd := eq_refl; c_q := g7 6;
  c_euler := c7_euler |}.
Definition xi7 : FP2 c7 := Quad (g7 1) (g7 2).
Lemma t7_euler : xi7 ^ Nat.div (c_p c7 ^ 2 - 1) 2 = - f1.
Proof. apply quad_ext; apply zp_eq; vm_compute; reflexivity. Qed.
Lemma t7_cubic : xi7 ^ Nat.div (c_p c7 ^ 2 - 1) 3 <> 1.
Proof. intros E. apply (f_equal (fun x : quad F7 => zval 7 (q0 x))) in E. vm_compute in E. discriminate. Qed.
Definition t7 : cfg12 := {| t_base := c7; t_sixth := 1; t_xi := xi7; t_mod6 := eq_refl; t_euler := t7_euler; t_cubic := t7_cubic |}.
(** an element of order 13, which divides 7^4 - 7^2 + 1 = 2353 = 13 * 181 *)
Definition x7 : FP12 t7 :=
  let c a b c d e f : FP6 t7 := Cubic (Quad (g7 a) (g7 b) : FP2 c7) (Quad (g7 c) (g7 d) : FP2 c7) (Quad (g7 e) (g7 f) : FP2 c7) in
  Quad (c 4 4 4 4 6 3)%Z (c 6 4 2 6 2 3)%Z.
Definition coords7 (x : FP12 t7) : list Z :=
  flat_map (fun c : cubic (FP2 c7) => flat_map (fun q : quad F7 => [zval 7 (q0 q); zval 7 (q1 q)]) [k0 c; k1 c; k2 c])
    [q0 (x : quad (FP6 t7)); q1 (x : quad (FP6 t7))].
Lemma coords7_inj x y : coords7 x = coords7 y -> x = y.
Proof.
  destruct x as [[[a b] [c d] [e f]] [[g h] [i j] [k l]]], y as [[[a' b'] [c' d'] [e' f']] [[g' h'] [i' j'] [k' l']]].
  intros E. cbv [coords7 flat_map app q0 q1 k0 k1 k2] in E.
  injection E as E1 E2 E3 E4 E5 E6 E7 E8 E9 E10 E11 E12.
  apply zp_eq in E1, E2, E3, E4, E5, E6, E7, E8, E9, E10, E11, E12. subst. reflexivity.
Qed.
Lemma x7_order : x7 ^ 13 = 1.
Proof. apply coords7_inj. vm_compute. reflexivity. Qed.
Lemma x7_cyclotomic : x7 ^ (c_p (t_base t7) ^ 4 - c_p (t_base t7) ^ 2 + 1) = 1.
Proof.
  transitivity (x7 ^ (13 * 181)); [f_equal; vm_compute; reflexivity|].
  rewrite fpow_mul, x7_order. apply fpow_one.
Qed.
Lemma x7_all_ones (i : FP12 t7) (k n : nat) : n = (13 * k + 2)%nat -> x7 * i = 1 -> Some i <> Some (x7 ^ n).
Proof.
  intros -> Hi E. assert (E' : i = x7 ^ (13 * k + 2)) by congruence. rewrite E' in Hi.
  rewrite fpow_add, fpow_mul, x7_order, fpow_one in Hi.
  apply (f_equal coords7) in Hi. vm_compute in Hi. discriminate.
Qed.
Lemma fp12_cyclotomic_pow_wrong :
  exists (t : cfg12) (x : FP12 t) (e : list Z),
  x ^ (c_p (t_base t) ^ 4 - c_p (t_base t) ^ 2 + 1) = 1 /\ limbs64 1 e /\
  fp12_cyclotomic_pow t x e <> Some (x ^ Z.to_nat (val64 e)).
Proof.
  exists t7, x7, [(2 ^ 64 - 1)%Z]. split; [exact x7_cyclotomic|].
  assert (Hl : limbs64 1 [(2 ^ 64 - 1)%Z]) by (split; [reflexivity|]; constructor; [lia|constructor]).
  split; [exact Hl|].
  destruct (fp12_cyclotomic_pow_all_ones t7 x7 1 _ ltac:(lia) x7_cyclotomic Hl) as (i & Ei & Hi); [cbn [val]; lia|].
  rewrite Ei. apply (x7_all_ones i (Z.to_nat (2 ^ 64 / 13))); [|exact Hi]. cbn [val]. lia.
Qed.
Section Ov.
  Variable F : fld.
  Add Field Fovr : (fld_theory F).
  Lemma overrides_correct (q : F) (nr : F -> F) (x : quad F) (y : cubic F) : (forall a, nr a = q * a) ->
    (q = - f1 -> quad_to_base (bn254_fq6_mul_by_non_residue nr x) = mod_mul 2 (- f1) [fnat 9; 1] (quad_to_base x)) /\
    quad_to_base (bls12_381_fq6_mul_by_non_residue x) = mod_mul 2 (- f1) [1; 1] (quad_to_base x) /\
    quad_to_base (shift_mul_by_non_residue2 nr x) = mod_mul 2 q [0; 1] (quad_to_base x) /\
    cubic_to_base (shift_mul_by_non_residue3 nr y) = mod_mul 3 q [0; 1; 0] (cubic_to_base y).
  Proof.
    intros H. split; [|split; [|split]].
    - intros Eq. apply bn254_override. intros a. rewrite H, Eq. ring.
    - apply bls12_381_override.
    - apply shift2_correct. exact H.
    - apply shift3_correct. exact H.
  Qed.
End Ov.
Lemma generated_flag_scalar (value : Z) : generated_is_minus_one [value] = true <-> value = (-1)%Z.
Proof. unfold generated_is_minus_one. cbn [hd]. apply Z.eqb_eq. Qed.
Lemma ne7 (x y : quad F7) : (zval 7 (q0 x) =? zval 7 (q0 y))%Z && (zval 7 (q1 x) =? zval 7 (q1 y))%Z = false -> x <> y.
Proof. intros H ->. rewrite !Z.eqb_refl in H. discriminate. Qed.
Lemma non_square7 (z : FP2 c7) : z <> 0 -> z ^ 24 <> 1 -> non_square z.
Proof.
  intros Hz H. apply (non_square_gen (FP2 c7) 7 2 (prime_check_sound 7 eq_refl) (fp2_fin c7) z 24); [reflexivity|exact Hz|exact H].
Qed.
Lemma generated_flag_wrong :
  exists (z : FP2 c7) (x : quad (FP2 c7)), non_square z /\ z = (Quad (- f1) (1 + 1) : FP2 c7) /\
  generated_is_minus_one [-1; 2]%Z = true /\
  quad_to_base (quad_square (fun a => z * a) (generated_is_minus_one [-1; 2]%Z) x) <> mod_mul 2 z (quad_to_base x) (quad_to_base x).
Proof.
  exists (Quad (- f1) (1 + 1) : FP2 c7), (Quad 0 1 : quad (FP2 c7)). split; [|split; [reflexivity|split; [reflexivity|]]].
  - apply non_square7; apply ne7; vm_compute; reflexivity.
  - intros E. apply (f_equal (fun l : list (FP2 c7) => zval 7 (q1 (nth 0 l 0 : quad F7)))) in E. vm_compute in E. discriminate.
Qed.
Definition z7 : FP2 c7 := Quad (g7 2) (g7 1).
Lemma z7_facts : c_q c7 = - f1 /\ z7 ^ Nat.div (c_p c7 ^ 2 - 1) 2 = - f1 /\ non_square z7 /\ z7 = (Quad (g7 2) (g7 1) : FP2 c7).
Proof.
  split; [apply zp_eq; vm_compute; reflexivity|]. split; [apply quad_ext; apply zp_eq; vm_compute; reflexivity|].
  split; [|reflexivity]. apply non_square7; apply ne7; vm_compute; reflexivity.
Qed.
