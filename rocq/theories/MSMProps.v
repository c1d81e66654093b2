(** Property theorems C50-C52, C88 and C89: multi-scalar multiplication, fixed-base multiplication and GLV.
    The specification (MSMSpec.v) is an arbitrary commutative group with [zmul] the integer multiples and [msm] their sum; [computes_in] says that a point
    type and its operations follow the group.  [None] is undefined behaviour, [Some None] a return value of false. *)
From Coq Require Import ZArith List Bool Arith Lia Permutation.
From Verif Require Import Field Zp ECModel ECSpec BigIntSpec SemigroupSpec MSMModel MSMSpec MSMProof MSMProof2 MSMProof3 MSMExtra.
Import ListNotations.
Local Ltac ands := cbv zeta; repeat match goal with |- _ /\ _ => split end.

(** ** C50: Pippenger.  Any schedule of the window loop, signed (naf) or unsigned digits, any window size. *)
Theorem C50_pippenger : forall {G P B : Type} (mem : G -> Prop) (zero : G) (add : G -> G -> G) (opp : G -> G)
  (okp : P -> Prop) (vp : P -> G) (okb : B -> Prop) (vb : B -> G) (ops : bucket_ops P B),
  abelian_group mem zero add opp -> computes_in mem zero add opp okp vp okb vb ops ->
  forall (bases : list P) (scalars : list (list Z)) (n modulus_bits window_bits : nat) (naf : bool) (order : list nat),
  Forall okp bases -> length bases = length scalars -> Forall (scalar_ok n modulus_bits) scalars -> (1 <= window_bits <= 62)%nat ->
  (0 < modulus_bits <= 64 * n)%nat -> schedule (windows_count modulus_bits window_bits) order ->
  exists r, pippenger_run ops naf order modulus_bits window_bits bases scalars = Some (Some r) /\ okb r /\
            vb r = msm zero add opp (map val64 scalars) (map vp bases).
Proof. exact (fun G P B => pippenger_any (G := G) (P := P) (B := B)). Qed.
Print Assumptions C50_pippenger.

(** The adapter: every strategy, number of threads, choice of window size and schedule. *)
Theorem C50_adapter : forall {G P B : Type} (mem : G -> Prop) (zero : G) (add : G -> G -> G) (opp : G -> G)
  (okp : P -> Prop) (vp : P -> G) (okb : B -> Prop) (vb : B -> G) (ops : bucket_ops P B),
  abelian_group mem zero add opp -> computes_in mem zero add opp okp vp okb vb ops ->
  forall (s : strategy) (naf : bool) (orders : nat -> nat -> list nat) (threads : Z) (n modulus_bits : nat) (bits : nat -> nat)
         (bases : list P) (scalars : list (list Z)),
  (forall i c, schedule c (orders i c)) -> (forall k, (1 <= bits k <= 62)%nat) -> (0 < modulus_bits <= 64 * n)%nat ->
  (0 < threads)%Z -> (2 * Z.of_nat (length scalars) + threads < 2 ^ 64)%Z ->
  Forall okp bases -> Forall (scalar_ok n modulus_bits) scalars -> length bases = length scalars ->
  exists r, adapter_run ops s naf orders threads modulus_bits bits bases scalars = Some (Some r) /\ okb r /\
            vb r = msm zero add opp (map val64 scalars) (map vp bases).
Proof. exact (fun G P B => adapter_spec (G := G) (P := P) (B := B)). Qed.
Print Assumptions C50_adapter.

Theorem C50_size_mismatch : forall {P B : Type} (ops : bucket_ops P B) (s : strategy) (naf : bool) (order : list nat) (orders : nat -> nat -> list nat)
  (threads : Z) (modulus_bits window_bits : nat) (bits : nat -> nat) (bases : list P) (scalars : list (list Z)),
  length bases <> length scalars ->
  pippenger_run ops naf order modulus_bits window_bits bases scalars = Some None /\
  adapter_run ops s naf orders threads modulus_bits bits bases scalars = Some None.
Proof. exact (fun P B => size_mismatch (P := P) (B := B)). Qed.
Print Assumptions C50_size_mismatch.

(** On a curve: affine bases and XYZZ buckets, the combination VariableBaseMSM uses. *)
Theorem C50_on_curve : forall (K : fld) (a b : K) (a0 : bool), ((1 + 1 : K) <> 0)%fld -> (a0 = true -> a = 0%fld) ->
  (fnat 4 * (a * a * a) + fnat 27 * (b * b) <> 0)%fld ->
  forall (s : strategy) (naf : bool) (orders : nat -> nat -> list nat) (threads : Z) (n modulus_bits : nat) (bits : nat -> nat)
         (bases : list (affine K)) (scalars : list (list Z)),
  (forall i c, schedule c (orders i c)) -> (forall k, (1 <= bits k <= 62)%nat) -> (0 < modulus_bits <= 64 * n)%nat ->
  (0 < threads)%Z -> (2 * Z.of_nat (length scalars) + threads < 2 ^ 64)%Z ->
  Forall (fun p => on_curve a b (aff p)) bases -> Forall (scalar_ok n modulus_bits) scalars -> length bases = length scalars ->
  exists r, adapter_run (xyzz_ops a a0) s naf orders threads modulus_bits bits bases scalars = Some (Some r) /\ xyzz_ok r /\
            xyzz_pt r = msm None (plus a) minus (map val64 scalars) (map aff bases).
Proof. exact adapter_on_curve. Qed.
Print Assumptions C50_on_curve.

(** The other point types: each computes in the curve's group (Jacobian points on curves with a = 0, see C84), so the two theorems above apply. *)
Theorem C50_point_types : forall (K : fld) (a b : K) (a0 low : bool), ((1 + 1 : K) <> 0)%fld -> (a0 = true -> a = 0%fld) ->
  (fnat 4 * (a * a * a) + fnat 27 * (b * b) <> 0)%fld ->
  abelian_group (on_curve a b) None (plus a) minus /\
  computes_in (on_curve a b) None (plus a) minus (fun p => on_curve a b (proj p)) proj (fun p => on_curve a b (proj p)) proj (proj_ops a a0) /\
  computes_in (on_curve a b) None (plus a) minus (fun p => xyzz_ok p /\ on_curve a b (xyzz_pt p)) xyzz_pt
              (fun p => xyzz_ok p /\ on_curve a b (xyzz_pt p)) xyzz_pt (xyzz_self_ops a a0) /\
  (a0 = true -> computes_in (on_curve a b) None (plus a) minus (fun p => on_curve a b (jac p)) jac (fun p => on_curve a b (jac p)) jac (jac_ops a a0 low)).
Proof. exact (fun K a b a0 low two Ha disc => conj (curve_group K a b two disc) (conj (proj_computes K a b a0 two Ha)
         (conj (xyzz_self_computes K a b a0 two Ha) (jac_computes K a b a0 low two Ha)))). Qed.
Print Assumptions C50_point_types.

(** Integers modulo 1000, 8-bit scalars, 3-bit windows (the last one only 2 bits wide), three threads. *)
Example C50_nonvacuous :
  let bases := [5; 7; 11; 13]%Z in let scalars := [[255]; [1]; [0]; [228]]%Z in
  let orders := (fun _ c => rev (seq 0 c)) in
  Forall (scalar_ok 1 8) scalars /\ (forall i c, schedule c (orders i c)) /\
  pippenger_run (mod_ops 1000) true [2; 0; 1]%nat 8 3 bases scalars = Some (Some ((255 * 5 + 1 * 7 + 0 * 11 + 228 * 13) mod 1000))%Z /\
  pippenger_run (mod_ops 1000) false [2; 0; 1]%nat 8 3 bases scalars = Some (Some 246)%Z /\
  adapter_run (mod_ops 1000) kParallelWindowAndTerm true orders 3 8 (fun _ => 3%nat) bases scalars = Some (Some 246)%Z /\
  adapter_run (mod_ops 1000) kParallelTerm false orders 3 8 (fun _ => 4%nat) bases scalars = Some (Some 246)%Z /\
  adapter_run (mod_ops 1000) kParallelTerm false orders 3 8 (fun _ => 4%nat) [] [] = Some (Some 0)%Z.
Proof.
  cbv zeta. split.
  { repeat constructor; cbn; lia. }
  split.
  { intros i c. unfold schedule. apply Permutation_sym, Permutation_rev. }
  ands; vm_compute; reflexivity.
Qed.
Definition zpt (P : point F7) : option (Z * Z) := option_map (fun xy => (zval 7 (fst xy), zval 7 (snd xy))) P.
(** On y^2 = x^3 + 5 over GF(7) (7 points): 3 * (3, 2) + 2 * (6, 2). *)
Example C50_curve_nonvacuous :
  let e := (fun n => mkz 7 (prime_check_sound 7 eq_refl) n : F7) in
  let bases := [mkA (e 3%Z) (e 2%Z); mkA (e 6%Z) (e 2%Z)] in
  option_map (option_map (fun r : xyzz F7 => zpt (xyzz_pt r)))
    (adapter_run (xyzz_ops (e 0%Z) true) kParallelTerm true (fun _ c => seq 0 c) 2 3 (fun _ => 2%nat) bases [[3%Z]; [2%Z]]) =
  Some (Some (zpt (msm None (plus (e 0%Z)) minus [3%Z; 2%Z] (map aff bases)))) /\
  zpt (msm None (plus (e 0%Z)) minus [3%Z; 2%Z] (map aff bases)) <> None.
Proof. cbv zeta. split; [vm_compute; reflexivity|]. vm_compute. discriminate. Qed.

(** ** C51: the fixed-base table. *)
Theorem C51_fixed_base : forall {G P B : Type} (mem : G -> Prop) (zero : G) (add : G -> G -> G) (opp : G -> G)
  (okp : P -> Prop) (vp : P -> G) (okb : B -> Prop) (vb : B -> G) (ops : bucket_ops P B),
  abelian_group mem zero add opp -> computes_in mem zero add opp okp vp okb vb ops ->
  forall (base : B) (n modulus_bits window_bits : nat), okb base -> (0 < window_bits)%nat -> (0 < modulus_bits)%nat ->
  exists rows, update_window_table ops modulus_bits window_bits base = Some rows /\
    (forall s, scalar_ok n modulus_bits s ->
       exists r, fixed_base_scalar_mul ops modulus_bits window_bits rows s = Some r /\ okb r /\ vb r = zmul zero add opp (val64 s) (vb base)) /\
    (forall scalars outputs order, Forall (scalar_ok n modulus_bits) scalars -> length scalars = length outputs -> schedule (length scalars) order ->
       exists rs, fixed_base_run ops order modulus_bits window_bits rows scalars outputs = Some (Some rs) /\ Forall okb rs /\
                  map vb rs = map (fun s => zmul zero add opp (val64 s) (vb base)) scalars) /\
    (forall scalars outputs order, length scalars <> length outputs -> fixed_base_run ops order modulus_bits window_bits rows scalars outputs = Some None).
Proof. exact (fun G P B => fixed_base_all (G := G) (P := P) (B := B)). Qed.
Print Assumptions C51_fixed_base.

Theorem C51_on_curve : forall (K : fld) (a b : K) (a0 low : bool), ((1 + 1 : K) <> 0)%fld -> (a0 = true -> a = 0%fld) ->
  (fnat 4 * (a * a * a) + fnat 27 * (b * b) <> 0)%fld ->
  forall (base : affine K) (n modulus_bits window_bits : nat), a0 = true -> on_curve a b (aff base) -> (0 < window_bits)%nat -> (0 < modulus_bits)%nat ->
  exists rows, update_window_table (jac_affine_ops a a0 low) modulus_bits window_bits (a_to_j base) = Some rows /\
    forall s, scalar_ok n modulus_bits s -> exists r, fixed_base_scalar_mul (jac_affine_ops a a0 low) modulus_bits window_bits rows s = Some r /\
      jac r = zmul None (plus a) minus (val64 s) (aff base).
Proof. exact fixed_base_on_curve. Qed.
Print Assumptions C51_on_curve.

(** 8-bit scalars in 3-bit windows: the table has three rows, the last with 4 entries in use. *)
Example C51_nonvacuous :
  let table := update_window_table (mod_ops 1000) 8 3 7%Z in
  let rows := match table with Some rows => rows | None => [] end in
  length rows = 3%nat /\ fixed_base_scalar_mul (mod_ops 1000) 8 3 rows [229%Z] = Some ((229 * 7) mod 1000)%Z /\
  fixed_base_run (mod_ops 1000) [1; 0]%nat 8 3 rows [[255%Z]; [0%Z]] [0%Z; 0%Z] = Some (Some [(255 * 7) mod 1000; 0]%Z) /\
  scalar_ok 1 8 [229%Z].
Proof. cbv zeta. split; [vm_compute; reflexivity|]. split; [vm_compute; reflexivity|]. split; [vm_compute; reflexivity|]. repeat constructor; cbn; lia. Qed.

(** ** C52: GLV::Decompose, for the four configurations in the repository and every scalar. *)
Theorem C52_decompose : forall (g : glv_config) (k : Z), In g [bn254_g1_glv; bn254_g2_glv; bls12_381_g1_glv; bls12_381_g2_glv] ->
  let k1k2 := glv_decompose (glv_rows g) (glv_modulus g) k in
  ((fst k1k2 + glv_lambda g * snd k1k2) mod glv_modulus g = k mod glv_modulus g)%Z /\ (Z.abs (fst k1k2) < 2 ^ 128)%Z /\ (Z.abs (snd k1k2) < 2 ^ 128)%Z.
Proof. exact glv_decompose_all. Qed.
Print Assumptions C52_decompose.

(** For any configuration whose rows vanish modulo r under (1, lambda). *)
Theorem C52_decompose_any : forall (c : glv_coeffs) (r k lambda : Z), r <> 0%Z ->
  (r | n11 c + lambda * n12 c)%Z -> (r | n21 c + lambda * n22 c)%Z ->
  let k1k2 := glv_decompose c r k in (r | fst k1k2 + lambda * snd k1k2 - k)%Z.
Proof. exact glv_congruence. Qed.
Print Assumptions C52_decompose_any.

Theorem C52_bounds : forall (c : glv_coeffs) (r k : Z), (0 < r)%Z -> (n11 c * n22 c - n12 c * n21 c = r)%Z ->
  let k1k2 := glv_decompose c r k in
  (Z.abs (fst k1k2) <= Z.abs (n11 c) + Z.abs (n21 c))%Z /\ (Z.abs (snd k1k2) <= Z.abs (n12 c) + Z.abs (n22 c))%Z.
Proof. exact glv_bounds. Qed.
Print Assumptions C52_bounds.

Example C52_nonvacuous :
  glv_decompose (glv_rows bn254_g1_glv) (glv_modulus bn254_g1_glv) (2 ^ 127) = (22194426578679912730922272912080695000, 9931322734385697763)%Z /\
  glv_decompose (glv_rows bls12_381_g1_glv) (glv_modulus bls12_381_g1_glv) (2 ^ 254 + 12345) =
    (115234022187892697880007887048205676601, -126416754993536952944562482807443815307)%Z.
Proof. split; vm_compute; reflexivity. Qed.

(** ** C88: GLV::Mul.  It is the scalar multiple when k1 and k2 occupy the same number of limbs (or k2 is 0). *)
Theorem C88_glv_mul_partial : forall {G P B : Type} (mem : G -> Prop) (zero : G) (add : G -> G -> G) (opp : G -> G)
  (okp : P -> Prop) (vp : P -> G) (okb : B -> Prop) (vb : B -> G) (ops : bucket_ops P B),
  abelian_group mem zero add opp -> computes_in mem zero add opp okp vp okb vb ops ->
  forall (add_points : P -> P -> B) (endo : P -> P) (c : glv_coeffs) (r lambda : Z),
  (forall p q, okp p -> okp q -> okb (add_points p q) /\ vb (add_points p q) = add (vp p) (vp q)) ->
  (0 < r)%Z -> (r | n11 c + lambda * n12 c)%Z -> (r | n21 c + lambda * n22 c)%Z ->
  forall (p : P) (k : Z), okp p -> okp (endo p) -> vp (endo p) = zmul zero add opp lambda (vp p) -> zmul zero add opp r (vp p) = zero ->
  (let k1k2 := glv_decompose c r k in mpz_num_bits (Z.abs (fst k1k2)) = mpz_num_bits (Z.abs (snd k1k2)) \/ snd k1k2 = 0%Z) ->
  okb (glv_mul ops add_points endo c r p k) /\ vb (glv_mul ops add_points endo c r p k) = zmul zero add opp k (vp p).
Proof. exact (fun G P B => glv_mul_spec (G := G) (P := P) (B := B)). Qed.
Print Assumptions C88_glv_mul_partial.

(** In general it is (k1 + lambda k2') p, where k2' is k2 shifted by the difference of the two bit counts (multiples of 64). *)
Theorem C88_glv_mul_value : forall {G P B : Type} (mem : G -> Prop) (zero : G) (add : G -> G -> G) (opp : G -> G)
  (okp : P -> Prop) (vp : P -> G) (okb : B -> Prop) (vb : B -> G) (ops : bucket_ops P B),
  abelian_group mem zero add opp -> computes_in mem zero add opp okp vp okb vb ops ->
  forall (add_points : P -> P -> B) (endo : P -> P) (c : glv_coeffs) (r lambda : Z),
  (forall p q, okp p -> okp q -> okb (add_points p q) /\ vb (add_points p q) = add (vp p) (vp q)) ->
  forall (p : P) (k : Z), okp p -> okp (endo p) -> vp (endo p) = zmul zero add opp lambda (vp p) ->
  let k1 := fst (glv_decompose c r k) in let k2 := snd (glv_decompose c r k) in
  let d := (Z.of_nat (mpz_num_bits (Z.abs k1)) - Z.of_nat (mpz_num_bits (Z.abs k2)))%Z in
  okb (glv_mul ops add_points endo c r p k) /\
  vb (glv_mul ops add_points endo c r p k) = zmul zero add opp (k1 + lambda * (Z.sgn k2 * Z.shiftl (Z.abs k2) d)) (vp p).
Proof. exact (fun G P B => glv_mul_value (G := G) (P := P) (B := B)). Qed.
Print Assumptions C88_glv_mul_value.

(** On a curve with a = 0 whose endomorphism is (x, y) -> (beta x, y). *)
Theorem C88_on_curve_partial : forall (K : fld) (a b : K) (a0 low : bool), ((1 + 1 : K) <> 0)%fld -> (a0 = true -> a = 0%fld) ->
  (fnat 4 * (a * a * a) + fnat 27 * (b * b) <> 0)%fld ->
  forall (beta : K) (c : glv_coeffs) (r lambda : Z) (p : affine K) (k : Z), a0 = true ->
  (0 < r)%Z -> (r | n11 c + lambda * n12 c)%Z -> (r | n21 c + lambda * n22 c)%Z ->
  on_curve a b (aff p) -> on_curve a b (aff (mkA (ax p * beta)%fld (ay p))) ->
  aff (mkA (ax p * beta)%fld (ay p)) = zmul None (plus a) minus lambda (aff p) -> zmul None (plus a) minus r (aff p) = None ->
  (let k1k2 := glv_decompose c r k in mpz_num_bits (Z.abs (fst k1k2)) = mpz_num_bits (Z.abs (snd k1k2)) \/ snd k1k2 = 0%Z) ->
  jac (glv_mul (jac_affine_ops a a0 low) (a_add a a0 low) (fun p => mkA (ax p * beta)%fld (ay p)) c r p k) = zmul None (plus a) minus k (aff p).
Proof. exact glv_on_curve. Qed.
Print Assumptions C88_on_curve_partial.

(** With the constants of BN254 G1 it is wrong for k = 2^127 and for k = lambda, here in the integers modulo r (the subgroup of order r). *)
Theorem C88_glv_mul_refuted :
  let g := bn254_g1_glv in let m := glv_modulus g in let endo := (fun p => (glv_lambda g * p) mod m)%Z in
  glv_mul (mod_ops m) (fun x y => (x + y) mod m)%Z endo (glv_rows g) m 1%Z (2 ^ 127)%Z <> (2 ^ 127 mod m)%Z /\
  glv_mul (mod_ops m) (fun x y => (x + y) mod m)%Z endo (glv_rows g) m 1%Z (glv_lambda g) <> (glv_lambda g mod m)%Z.
Proof. exact glv_mul_wrong. Qed.
Print Assumptions C88_glv_mul_refuted.

(** y^2 = x^3 + 5 over GF(7): 7 points, beta = 4 acts as multiplication by 2; rows (1, 3) and (-2, 1), determinant 7. *)
Example C88_nonvacuous :
  let e := (fun n => mkz 7 (prime_check_sound 7 eq_refl) n : F7) in
  let p := mkA (e 3%Z) (e 2%Z) in let c := mk_glv 1 3 (-2) 1 in
  (7 | n11 c + 2 * n12 c)%Z /\ (7 | n21 c + 2 * n22 c)%Z /\
  glv_decompose c 7 4 = (2, 1)%Z /\
  zpt (jac (glv_mul (jac_affine_ops (e 0%Z) true true) (a_add (e 0%Z) true true) (fun p => mkA (ax p * e 4%Z)%fld (ay p)) c 7 p 4)) =
  zpt (zmul None (plus (e 0%Z)) minus 4 (aff p)) /\
  zpt (zmul None (plus (e 0%Z)) minus 2 (aff p)) = Some (zval 7 (e 3%Z * e 4%Z)%fld, 2)%Z /\
  zpt (zmul None (plus (e 0%Z)) minus 7 (aff p)) = None.
Proof.
  cbv zeta. split; [exists 1%Z; reflexivity|]. split; [exists 0%Z; reflexivity|]. ands; vm_compute; reflexivity.
Qed.

(** ** C89: the thread limit of the process after an MSM. *)
Theorem C89_thread_limit_partial : forall (s : strategy) (max_threads window_count : Z), s <> kParallelWindowAndTerm ->
  adapter_threads_after s max_threads window_count = max_threads.
Proof. exact adapter_threads_kept. Qed.
Print Assumptions C89_thread_limit_partial.
Theorem C89_thread_limit_window_and_term : forall max_threads window_count : Z, (0 < window_count)%Z -> (0 < max_threads)%Z ->
  (adapter_threads_after kParallelWindowAndTerm max_threads window_count = max_threads <-> max_threads = 2 \/ (window_count = 1 /\ 2 <= max_threads))%Z.
Proof. exact adapter_threads_lost. Qed.
Print Assumptions C89_thread_limit_window_and_term.
Theorem C89_thread_limit_refuted : exists max_threads window_count : Z, (0 < window_count)%Z /\
  adapter_threads_after kParallelWindowAndTerm max_threads window_count <> max_threads.
Proof. exact (ex_intro _ 64%Z (ex_intro _ 51%Z (conj eq_refl (fun H => eq_ind 2%Z (fun x => match x with 2%Z => True | _ => False end) I 64%Z H)))). Qed.
Print Assumptions C89_thread_limit_refuted.
Example C89_nonvacuous : adapter_threads_after kParallelTerm 64 51 = 64%Z /\ adapter_threads_after kParallelWindowAndTerm 64 51 = 2%Z.
Proof. split; reflexivity. Qed.
