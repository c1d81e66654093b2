(** The towers the theorems are about.  A configuration fixes the prime and the non-residues, with
    Euler's criterion stating that they are non-residues; each level is then a field. *)
From Coq Require Import ZArith List Bool Arith Lia Znumtheory Ring Field Field_theory.
From Coq Require Import ZifyNat.
From Verif Require Import Field Zp ExtFieldModel TowerModel ExtFieldSpec ExtFieldProof QuarticProof FrobProof ExtFieldExtra TowerProof.
Import ListNotations.
Open Scope fld_scope.

Lemma minus_one_ne p Hp : (2 < p)%nat -> - (f1 : Zp (Z.of_nat p) Hp) <> 1.
Proof.
  intros H. set (F := Zp (Z.of_nat p) Hp). intros E.
  assert (N : (fnat 2 : F) <> 0) by (apply fnat_neq0; intros D; apply Z.divide_pos_le in D; lia).
  apply N. cbn [fnat]. pose proof (fld_theory F) as T. destruct T as [R _ _ _].
  transitivity (@fadd F 1 1).
  - rewrite (Radd_comm R 1 0), (Radd_0_l R). reflexivity.
  - rewrite <- E at 2. apply (Ropp_def R).
Qed.

Section Euler.
  Variable K : fld.
  Add Field Ke : (fld_theory K).
  Lemma minus_one_odd n : (- (f1 : K)) ^ (2 * n + 1) = - f1.
  Proof.
    rewrite fpow_add, fpow_mul, fpow_1. replace ((- (f1 : K)) ^ 2) with (1 : K) by (cbn [fpow]; ring).
    rewrite fpow_one. ring.
  Qed.
  (** an element whose cube a satisfies a^((P-1)/2) = -1, P = 6n + 1, has Euler symbol -1 in the field of P^3 elements *)
  Lemma euler_cube (v a : K) P n : P = (6 * n + 1)%nat -> v ^ 3 = a -> a ^ (3 * n) = - f1 ->
    v ^ Nat.div (P ^ 3 - 1) 2 = - f1.
  Proof.
    intros EP Ev Ea. replace (Nat.div (P ^ 3 - 1) 2) with (3 * (3 * n) * (2 * (6 * n * n + 3 * n) + 1))%nat.
    - rewrite fpow_mul, (fpow_mul K v 3 (3 * n)), Ev, Ea. apply minus_one_odd.
    - apply Nat.div_unique_exact; [lia|]. subst P. cbn [Nat.pow]. nia.
  Qed.
  Lemma euler_square (u a : K) P n : P = (4 * n + 1)%nat -> u ^ 2 = a -> a ^ (2 * n) = - f1 ->
    u ^ Nat.div (P ^ 2 - 1) 2 = - f1.
  Proof.
    intros EP Ev Ea. replace (Nat.div (P ^ 2 - 1) 2) with (2 * (2 * n) * (2 * n + 1))%nat.
    - rewrite fpow_mul, (fpow_mul K u 2 (2 * n)), Ev, Ea. apply minus_one_odd.
    - apply Nat.div_unique_exact; [lia|]. subst P. cbn [Nat.pow]. nia.
  Qed.
End Euler.

(** Fp and Fp2 = Fp[u]/(u^2 - q), p odd, q^((p-1)/2) = -1. *)
Record cfg2 : Type := {
  c_p : nat; c_half : nat;
  c_prime : prime (Z.of_nat c_p);
  c_odd : c_p = (2 * c_half + 1)%nat;
  c_q : Zp (Z.of_nat c_p) c_prime;
  c_euler : c_q ^ c_half = - f1 }.
Definition FP (c : cfg2) : fld := Zp (Z.of_nat (c_p c)) (c_prime c).

Section Cfg2.
  Variable c : cfg2.
  Lemma c_euler' : (c_q c : FP c) ^ c_half c = - f1. Proof. exact (c_euler c). Qed.
  Lemma cfg2_p3 : (2 < c_p c)%nat.
  Proof. pose proof (prime_ge_2 _ (c_prime c)). pose proof (c_odd c). lia. Qed.
  Lemma cfg2_nz : (c_q c : FP c) <> 0.
  Proof.
    intros E. pose proof c_euler' as H. rewrite E in H. pose proof cfg2_p3. pose proof (c_odd c).
    rewrite (fpow_0 (FP c)) in H by lia. apply (f1_neq_0 (FP c)). apply (fopp_eq0 (FP c)). symmetry. exact H.
  Qed.
  Lemma cfg2_non_square : non_square (c_q c : FP c).
  Proof.
    apply (non_square_gen (FP c) (c_p c) 1 (c_prime c) (prime_frob1 (c_p c) (c_prime c)) (c_q c) (c_half c)).
    - rewrite Nat.pow_1_r. pose proof (c_odd c). lia.
    - exact cfg2_nz.
    - rewrite c_euler'. apply minus_one_ne. exact cfg2_p3.
  Qed.
End Cfg2.
Definition FP2 (c : cfg2) : fld := quad_fld (FP c) (c_q c) (fun x => c_q c * x) true (fun x => eq_refl) (cfg2_non_square c).

Section Cfg2fin.
  Variable c : cfg2.
  Let p := c_p c.
  Lemma fp2_euler1 : (c_q c : FP c) ^ Nat.div (p ^ 1 - 1) 2 = - f1.
  Proof.
    rewrite <- (c_euler' c). f_equal. rewrite Nat.pow_1_r. unfold p. rewrite (c_odd c) at 1.
    replace (2 * c_half c + 1 - 1)%nat with (c_half c * 2)%nat by lia. apply Nat.div_mul. lia.
  Qed.
  Lemma fp2_fin (x : FP2 c) : x ^ (p ^ 2) = x.
  Proof.
    apply (quad_fin (FP c) (c_q c) _ true (fun x => eq_refl) (cfg2_non_square c) p (c_prime c) (prime_char p (c_prime c)))
      with (d := 1%nat).
    - exists (c_half c). exact (c_odd c).
    - apply (prime_frob1 p (c_prime c)).
    - exact fp2_euler1.
  Qed.
  Lemma fp2_char : (fnat p : FP2 c) = 0.
  Proof. apply quad_char. apply prime_char. Qed.
End Cfg2fin.

(** Fp6 = Fp2[v]/(v^3 - xi) and Fp12 = Fp6[w]/(w^2 - v), p = 1 mod 6, xi neither a square nor a cube. *)
Record cfg12 : Type := {
  t_base : cfg2; t_sixth : nat; t_xi : FP2 t_base;
  t_mod6 : c_p t_base = (6 * t_sixth + 1)%nat;
  t_euler : t_xi ^ Nat.div (c_p t_base ^ 2 - 1) 2 = - f1;
  t_cubic : t_xi ^ Nat.div (c_p t_base ^ 2 - 1) 3 <> 1 }.

Section Cfg12.
  Variable t : cfg12.
  Let p := c_p (t_base t).
  Lemma t_sq6 : exists n, (p ^ 2 - 1 = 6 * n)%nat /\ (0 < n)%nat.
  Proof.
    destruct (pow_cong p 6 (t_sixth t) 2 (t_mod6 t)) as (n & E). exists n. split; [lia|].
    pose proof (cfg2_p3 (t_base t)). destruct n; [|lia]. exfalso. fold p in H. cbn [Nat.pow] in E. nia.
  Qed.
  Lemma t_xi_nz : t_xi t <> 0.
  Proof.
    intros E. pose proof (t_euler t) as H. rewrite E in H. destruct t_sq6 as (n & En & Hn). fold p in H. rewrite En in H.
    rewrite (fpow_0 (FP2 (t_base t))) in H.
    - apply (f1_neq_0 (FP2 (t_base t))). apply (fopp_eq0 (FP2 (t_base t))). symmetry. exact H.
    - replace (6 * n)%nat with (3 * n * 2)%nat by lia. rewrite Nat.div_mul; lia.
  Qed.
  Lemma t_non_cube : non_cube (t_xi t).
  Proof.
    destruct t_sq6 as (n & En & Hn). apply (non_cube_gen (FP2 (t_base t)) p 2 (c_prime (t_base t)) (fp2_fin (t_base t)) _ (2 * n)).
    - lia.
    - exact t_xi_nz.
    - pose proof (t_cubic t) as H. fold p in H. rewrite En in H. replace (6 * n)%nat with (2 * n * 3)%nat in H by lia.
      rewrite Nat.div_mul in H by lia. exact H.
  Qed.
End Cfg12.
Definition FP6 (t : cfg12) : fld :=
  cubic_fld (FP2 (t_base t)) (t_xi t) (fun x => t_xi t * x) (fun x => eq_refl) (t_non_cube t).
(** the non-residue (0, 1, 0) of Fp12 *)
Definition FP6_v (t : cfg12) : FP6 t := Cubic 0 1 0.

Section Cfg12b.
  Variable t : cfg12.
  Let p := c_p (t_base t).
  Let Hp : prime (Z.of_nat p) := c_prime (t_base t).
  Add Field F6f : (fld_theory (FP6 t)).
  Lemma t_mod3 : exists s, p = (3 * s + 1)%nat.
  Proof. exists (2 * t_sixth t)%nat. pose proof (t_mod6 t). fold p in H. lia. Qed.
  Lemma t_mod2 : exists s, p = (2 * s + 1)%nat.
  Proof. exists (3 * t_sixth t)%nat. pose proof (t_mod6 t). fold p in H. lia. Qed.
  Lemma fp6_fin (x : FP6 t) : x ^ (p ^ 6) = x.
  Proof.
    apply (cubic_fin (FP2 (t_base t)) (t_xi t) _ (fun x => eq_refl) (t_non_cube t) p Hp (fp2_char (t_base t)) t_mod3 2
             (fp2_fin (t_base t))).
  Qed.
  Lemma fp6_char : (fnat p : FP6 t) = 0.
  Proof. apply cubic_char. apply (fp2_char (t_base t)). Qed.
  Lemma v_cube : FP6_v t ^ 3 = (Cubic (t_xi t) 0 0 : FP6 t).
  Proof.
    pose proof (cv_cube (FP2 (t_base t)) (t_xi t) (fun x => t_xi t * x) (fun x => eq_refl) (t_non_cube t)) as E.
    change (FP6_v t * FP6_v t * FP6_v t = (Cubic (t_xi t) 0 0 : FP6 t)) in E. rewrite <- E. cbn [fpow]. ring.
  Qed.
  Lemma emb6_pow (a : FP2 (t_base t)) n : (Cubic (a ^ n) 0 0 : FP6 t) = (Cubic a 0 0 : FP6 t) ^ n.
  Proof. apply (cemb_pow (FP2 (t_base t)) (t_xi t) (fun x => t_xi t * x) (fun x => eq_refl) (t_non_cube t)). Qed.
  Lemma v_euler : FP6_v t ^ Nat.div (p ^ 6 - 1) 2 = - f1.
  Proof.
    destruct (t_sq6 t) as (n & En & Hn). fold p in En. replace (p ^ 6)%nat with ((p ^ 2) ^ 3)%nat by (rewrite <- Nat.pow_mul_r; reflexivity).
    apply (euler_cube (FP6 t) (FP6_v t) (Cubic (t_xi t) 0 0) (p ^ 2) n).
    - pose proof (pow_pos p 2 Hp). lia.
    - exact v_cube.
    - rewrite <- emb6_pow. pose proof (t_euler t) as H. fold p in H. rewrite En in H.
      replace (6 * n)%nat with (3 * n * 2)%nat in H by lia. rewrite Nat.div_mul in H by lia. rewrite H.
      apply cubic_ext; [reflexivity| |]; cbn [k1 k2 fopp f1 FP6 cubic_fld cubic_negate cubic_one]; symmetry;
        apply (proj2 (fopp_eq0 (FP2 (t_base t)) 0)); reflexivity.
  Qed.
  Lemma m1_ne_1 : - (f1 : FP6 t) <> 1.
  Proof.
    intros E. apply (f_equal k0) in E. apply (f_equal q0) in E.
    exact (minus_one_ne p Hp (cfg2_p3 (t_base t)) E).
  Qed.
  Lemma v_nz : FP6_v t <> 0.
  Proof. intros E. apply (f_equal k1) in E. exact (f1_neq_0 (FP2 (t_base t)) E). Qed.
  Lemma v_non_square : non_square (FP6_v t).
  Proof.
    destruct t_mod2 as (s & Es). destruct (pow_cong p 2 s 6 Es) as (n & E).
    apply (non_square_gen (FP6 t) p 6 Hp fp6_fin _ n).
    - lia.
    - exact v_nz.
    - pose proof v_euler as H. rewrite E in H. replace (2 * n + 1 - 1)%nat with (n * 2)%nat in H by lia.
      rewrite Nat.div_mul in H by lia. rewrite H. exact m1_ne_1.
  Qed.
End Cfg12b.
Definition FP12 (t : cfg12) : fld := quad_fld (FP6 t) (FP6_v t) (fun x => FP6_v t * x) false (fun x => eq_refl) (v_non_square t).

(** Fp4 = Fp2[w]/(w^2 - u), p = 1 mod 4. *)
Record cfg4 : Type := { f_base : cfg2; f_quarter : nat; f_mod4 : c_p f_base = (4 * f_quarter + 1)%nat }.
Definition FP2_u (c : cfg2) : FP2 c := Quad 0 1.
Section Cfg4.
  Variable t : cfg4.
  Let p := c_p (f_base t).
  Let Hp : prime (Z.of_nat p) := c_prime (f_base t).
  Add Field F2f : (fld_theory (FP2 (f_base t))).
  Lemma u_square : FP2_u (f_base t) ^ 2 = (Quad (c_q (f_base t)) 0 : FP2 (f_base t)).
  Proof.
    pose proof (qy_square (FP (f_base t)) (c_q (f_base t)) (fun x => c_q (f_base t) * x) true (fun x => eq_refl) (cfg2_non_square (f_base t))) as E.
    change (FP2_u (f_base t) * FP2_u (f_base t) = (Quad (c_q (f_base t)) 0 : FP2 (f_base t))) in E. rewrite <- E. cbn [fpow]. ring.
  Qed.
  Lemma emb2_pow (a : FP (f_base t)) n : (Quad (a ^ n) 0 : FP2 (f_base t)) = (Quad a 0 : FP2 (f_base t)) ^ n.
  Proof. apply (qemb_pow (FP (f_base t)) (c_q (f_base t)) (fun x => c_q (f_base t) * x) true (fun x => eq_refl) (cfg2_non_square (f_base t))). Qed.
  Lemma u_euler : FP2_u (f_base t) ^ Nat.div (p ^ 2 - 1) 2 = - f1.
  Proof.
    apply (euler_square (FP2 (f_base t)) _ (Quad (c_q (f_base t)) 0) p (f_quarter t)).
    - exact (f_mod4 t).
    - exact u_square.
    - rewrite <- emb2_pow. pose proof (c_euler' (f_base t)) as H. pose proof (c_odd (f_base t)) as O. pose proof (f_mod4 t) as O4.
      replace (2 * f_quarter t)%nat with (c_half (f_base t)) by lia. rewrite H.
      apply quad_ext; [reflexivity|]. cbn [q1 fopp f1 FP2 quad_fld quad_negate quad_one]. symmetry.
      apply (proj2 (fopp_eq0 (FP (f_base t)) 0)). reflexivity.
  Qed.
  Lemma u_non_square : non_square (FP2_u (f_base t)).
  Proof.
    destruct (pow_cong p 4 (f_quarter t) 2 (f_mod4 t)) as (n & E).
    apply (non_square_gen (FP2 (f_base t)) p 2 Hp (fp2_fin (f_base t)) _ (2 * n)).
    - lia.
    - intros E0. apply (f_equal q1) in E0. exact (f1_neq_0 (FP (f_base t)) E0).
    - pose proof u_euler as H. rewrite E in H. replace (4 * n + 1 - 1)%nat with (2 * n * 2)%nat in H by lia.
      rewrite Nat.div_mul in H by lia. rewrite H. intros E0. apply (f_equal q0) in E0.
      exact (minus_one_ne p Hp (cfg2_p3 (f_base t)) E0).
  Qed.
End Cfg4.
Definition FP4 (t : cfg4) : fld :=
  quad_fld (FP2 (f_base t)) (FP2_u (f_base t)) (fun x => FP2_u (f_base t) * x) false (fun x => eq_refl) (u_non_square t).

(** Fp3 = Fp[x]/(x^3 - q), p = 1 mod 3, q^((p-1)/3) <> 1; and, when p = 1 mod 6 and q is not a square
    either, Fp6 = Fp3[y]/(y^2 - x). *)
Record cfg3 : Type := {
  h_p : nat; h_third : nat; h_prime : prime (Z.of_nat h_p); h_mod3 : h_p = (3 * h_third + 1)%nat;
  h_q : Zp (Z.of_nat h_p) h_prime; h_q0 : h_q <> 0; h_cubic : h_q ^ h_third <> 1 }.
Definition FPc (c : cfg3) : fld := Zp (Z.of_nat (h_p c)) (h_prime c).
Lemma cfg3_non_cube c : non_cube (h_q c : FPc c).
Proof.
  apply (non_cube_gen (FPc c) (h_p c) 1 (h_prime c) (prime_frob1 (h_p c) (h_prime c)) (h_q c) (h_third c)).
  - rewrite Nat.pow_1_r. pose proof (h_mod3 c). lia.
  - exact (h_q0 c).
  - exact (h_cubic c).
Qed.
Definition FP3 (c : cfg3) : fld := cubic_fld (FPc c) (h_q c) (fun x => h_q c * x) (fun x => eq_refl) (cfg3_non_cube c).
Definition FP3_x (c : cfg3) : FP3 c := Cubic 0 1 0.
Lemma fp3_fin c (x : FP3 c) : x ^ (h_p c ^ 3) = x.
Proof.
  apply (cubic_fin (FPc c) (h_q c) _ (fun x => eq_refl) (cfg3_non_cube c) (h_p c) (h_prime c) (prime_char _ (h_prime c))
           (ex_intro _ (h_third c) (h_mod3 c)) 1 (prime_frob1 (h_p c) (h_prime c))).
Qed.
Lemma fp3_char c : (fnat (h_p c) : FP3 c) = 0.
Proof. apply cubic_char. apply prime_char. Qed.

Record cfg6 : Type := { s_base : cfg3; s_half : nat; s_odd : h_p s_base = (2 * s_half + 1)%nat;
  s_euler : (h_q s_base : FPc s_base) ^ s_half = - f1 }.
Section Cfg6.
  Variable t : cfg6.
  Let c := s_base t.
  Let p := h_p c.
  Let Hp : prime (Z.of_nat p) := h_prime c.
  Add Field F3f : (fld_theory (FP3 c)).
  Lemma s_sixth : exists n, p = (6 * n + 1)%nat.
  Proof. pose proof (h_mod3 c) as A. pose proof (s_odd t) as B. fold c p in B. fold p in A. exists (Nat.div p 6).
    pose proof (Nat.div_mod p 6 ltac:(lia)). pose proof (Nat.mod_upper_bound p 6 ltac:(lia)). lia. Qed.
  Lemma x_cube : FP3_x c ^ 3 = (Cubic (h_q c) 0 0 : FP3 c).
  Proof.
    pose proof (cv_cube (FPc c) (h_q c) (fun x => h_q c * x) (fun x => eq_refl) (cfg3_non_cube c)) as E.
    change (FP3_x c * FP3_x c * FP3_x c = (Cubic (h_q c) 0 0 : FP3 c)) in E. rewrite <- E. cbn [fpow]. ring.
  Qed.
  Lemma emb3_pow (a : FPc c) n : (Cubic (a ^ n) 0 0 : FP3 c) = (Cubic a 0 0 : FP3 c) ^ n.
  Proof. apply (cemb_pow (FPc c) (h_q c) (fun x => h_q c * x) (fun x => eq_refl) (cfg3_non_cube c)). Qed.
  Lemma x_euler : FP3_x c ^ Nat.div (p ^ 3 - 1) 2 = - f1.
  Proof.
    destruct s_sixth as (n & En).
    apply (euler_cube (FP3 c) (FP3_x c) (Cubic (h_q c) 0 0) p n).
    - exact En.
    - exact x_cube.
    - rewrite <- emb3_pow. pose proof (s_euler t) as H. fold c in H. pose proof (s_odd t) as O. fold c p in O.
      replace (3 * n)%nat with (s_half t) by lia. rewrite H.
      apply cubic_ext; [reflexivity| |]; cbn [k1 k2 fopp f1 FP3 cubic_fld cubic_negate cubic_one]; symmetry;
        apply (proj2 (fopp_eq0 (FPc c) 0)); reflexivity.
  Qed.
  Lemma x_non_square : non_square (FP3_x c).
  Proof.
    destruct s_sixth as (n & En). assert (E2 : p = (2 * (3 * n) + 1)%nat) by lia.
    destruct (pow_cong p 2 _ 3 E2) as (m & E).
    apply (non_square_gen (FP3 c) p 3 Hp (fp3_fin c) _ m).
    - lia.
    - intros E0. apply (f_equal k1) in E0. exact (f1_neq_0 (FPc c) E0).
    - pose proof x_euler as H. rewrite E in H. replace (2 * m + 1 - 1)%nat with (m * 2)%nat in H by lia.
      rewrite Nat.div_mul in H by lia. rewrite H. intros E0. apply (f_equal k0) in E0.
      refine (minus_one_ne p Hp _ E0). pose proof (prime_ge_2 _ Hp). lia.
  Qed.
End Cfg6.
Definition FP6q (t : cfg6) : fld :=
  quad_fld (FP3 (s_base t)) (FP3_x (s_base t)) (fun x => FP3_x (s_base t) * x) false (fun x => eq_refl) (x_non_square t).

(** Quartic Fp4 = Fp[y]/(y^4 - q), p = 1 mod 4, p > 5, q^((p-1)/2) = -1; its Inverse uses the Frobenius
    coefficients q^(k (p^d - 1)/4). *)
Record cfgq : Type := {
  g_p : nat; g_m : nat; g_prime : prime (Z.of_nat g_p); g_mod4 : g_p = (4 * g_m + 1)%nat; g_gt5 : (5 < g_p)%nat;
  g_q : Zp (Z.of_nat g_p) g_prime; g_euler : g_q ^ (2 * g_m) = - f1 }.
Definition FPg (c : cfgq) : fld := Zp (Z.of_nat (g_p c)) (g_prime c).
Section Cfgq.
  Variable c : cfgq.
  Lemma g_small n : (0 < n < g_p c)%nat -> (fnat n : FPg c) <> 0.
  Proof. intros H. apply fnat_neq0. intros D. apply Z.divide_pos_le in D; lia. Qed.
  Lemma g_n2 : (fnat 2 : FPg c) <> 0. Proof. apply g_small. pose proof (g_gt5 c). lia. Qed.
  Lemma g_n3 : (fnat 3 : FPg c) <> 0. Proof. apply g_small. pose proof (g_gt5 c). lia. Qed.
  Lemma g_n5 : (fnat 5 : FPg c) <> 0. Proof. apply g_small. pose proof (g_gt5 c). lia. Qed.
  Lemma g_w : (g_q c : FPg c) ^ g_m c * (g_q c : FPg c) ^ g_m c = - f1.
  Proof.
    rewrite <- fpow_add. pose proof (g_euler c : (g_q c : FPg c) ^ (2 * g_m c) = - f1) as H. rewrite <- H. f_equal. lia.
  Qed.
  Lemma g_cf k e : (k <= 3)%nat -> (e <= 3)%nat ->
    frob_coeff (g_p c) 4 (g_q c : FPg c) k e = ((g_q c : FPg c) ^ g_m c) ^ (k * e).
  Proof. eapply quartic_cf; try exact (g_mod4 c); try exact (g_gt5 c). intros x. reflexivity. Qed.
  Lemma g_non_square : non_square (g_q c : FPg c).
  Proof. eapply q_non_square; try exact (g_mod4 c); try exact (g_gt5 c); try exact (g_euler c). intros x. reflexivity. Qed.
End Cfgq.
Definition FPquartic (c : cfgq) : fld :=
  quartic_fld (FPg c) (g_q c) (fun x => g_q c * x) (fun x => eq_refl) (g_n2 c) (g_n3 c) (g_n5 c)
    (frob_coeff (g_p c) 4 (g_q c : FPg c)) (g_q c ^ g_m c) (g_w c) (g_cf c) (g_non_square c).

(** ** The Frobenius maps of the levels
    quadratic_extension_field.h:116-122, cubic_extension_field.h:130-139 and quartic_extension_field.h:173-185
    FrobeniusMapInPlace, instantiated with the configurations of fp2.h, fp3.h, fp4.h, fp6.h and fp12.h: the
    coefficient tables are indexed modulo the degree over the prime field, and the tables of the quadratic Fp4,
    of the quadratic Fp6 and of Fp12 hold elements of a smaller field. *)
Definition fp2_frobenius (c : cfg2) (x : FP2 c) (e : nat) : FP2 c :=
  quad_frobenius (prime_frobenius : FP c -> nat -> FP c) (@fmul (FP c)) frob_coeff_fp2 2 x e.
Definition fp3_frobenius (c : cfg3) (x : FP3 c) (e : nat) : FP3 c :=
  cubic_frobenius (prime_frobenius : FPc c -> nat -> FPc c) (@fmul (FPc c))
    (frob_coeff (h_p c) 3 (h_q c : FPc c) 1) (frob_coeff (h_p c) 3 (h_q c : FPc c) 2) 3 x e.
Definition fp4_frobenius (t : cfg4) (x : FP4 t) (e : nat) : FP4 t :=
  quad_frobenius (fp2_frobenius (f_base t)) (fun (b : FP2 (f_base t)) (a : FP (f_base t)) => quad_mul_base (b : quad (FP (f_base t))) a)
    (frob_coeff (c_p (f_base t)) 4 (c_q (f_base t) : FP (f_base t)) 1) 4 x e.
Definition fp6q_frobenius (t : cfg6) (x : FP6q t) (e : nat) : FP6q t :=
  quad_frobenius (fp3_frobenius (s_base t)) (fun (b : FP3 (s_base t)) (a : FPc (s_base t)) => cubic_mul_base (b : cubic (FPc (s_base t))) a)
    (frob_coeff (h_p (s_base t)) 6 (h_q (s_base t) : FPc (s_base t)) 1) 6 x e.
Definition fp6_frobenius (t : cfg12) (x : FP6 t) (e : nat) : FP6 t :=
  cubic_frobenius (fp2_frobenius (t_base t)) (@fmul (FP2 (t_base t)))
    (frob_coeff (c_p (t_base t)) 3 (t_xi t) 1) (frob_coeff (c_p (t_base t)) 3 (t_xi t) 2) 6 x e.
Definition fp12_frobenius (t : cfg12) (x : FP12 t) (e : nat) : FP12 t :=
  quad_frobenius (fp6_frobenius t) (fun (b : FP6 t) (a : FP2 (t_base t)) => cubic_mul_base (b : cubic (FP2 (t_base t))) a)
    (frob_coeff (c_p (t_base t)) 6 (t_xi t) 1) 12 x e.

