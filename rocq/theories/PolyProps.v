(** Property theorems C32-C38, C75-C78: univariate polynomials.
    [md] is the polynomial type's MaxDegree; a result [None] is a failed CHECK or an out-of-bounds access, an inner [None] is
    the "no result" of an std::optional.  PolySpec.v defines [coeff], [represents], [conv], [eval]. *)
From Coq Require Import ZArith List Bool Arith Lia Sorted Permutation Field_theory.
From Verif Require Import Field Zp PolyModel PolySpec PolyProof PolyProof2 PolyProof3 PolyProof4 PolyProof5 PolyProof6 PolyExtra.
Import ListNotations.
Open Scope fld_scope.
Local Ltac ands := cbv zeta; repeat match goal with |- _ /\ _ => split end.

(** Addition, negation and scaling: coefficient by coefficient, canonical, in place as out of place. *)
Theorem C32_dense_linear : forall (K : fld) (md : Z) (a b : list K) (s : K), canonical a -> canonical b ->
  (Z.of_nat (degree a) <= md)%Z -> (Z.of_nat (degree b) <= md)%Z ->
  (represents (dense_add a b) (fun i => coeff a i + coeff b i) /\ dense_add_in_place a b = dense_add a b) /\
  (exists l, dense_sub md a b = Some l /\ dense_sub_in_place md a b = Some l /\ represents l (fun i => coeff a i - coeff b i)) /\
  (exists l, dense_negate md a = Some l /\ dense_negate_in_place a = l /\ represents l (fun i => - coeff a i)) /\
  (exists l, dense_mul_scalar md a s = Some l /\ dense_mul_scalar_in_place a s = l /\ represents l (fun i => coeff a i * s)) /\
  (s <> 0 -> exists l, dense_div_scalar md a s = Some (Some l) /\ dense_div_scalar_in_place a s = Some l /\ represents l (fun i => coeff a i / s)).
Proof. exact dense_linear. Qed.
Print Assumptions C32_dense_linear.

Theorem C32_dense_mul : forall (K : fld) (a b : list K), canonical a -> canonical b ->
  exists l, dense_mul a b = Some l /\ dense_mul_in_place a b = Some l /\ represents l (conv (coeff a) (coeff b)).
Proof. exact mul_spec. Qed.
Print Assumptions C32_dense_mul.

(** Canonical vectors are equal exactly when the polynomials are. *)
Theorem C32_equality : forall (K : fld) (a b : list K), canonical a -> canonical b -> (a = b <-> forall i, coeff a i = coeff b i).
Proof. exact canonical_iff. Qed.
Print Assumptions C32_equality.

(** The mixed operations of a dense with a sparse polynomial. *)
Theorem C32_dense_sparse : forall (K : fld) (md : Z) (a : list K) (b : list (Z * K)), canonical a -> scanonical b -> (sp_degree b <= md)%Z ->
  (exists l, ds_add md a b = Some l /\ ds_add_in_place false a b = Some l /\ represents l (fun i => coeff a i + scoeff b i)) /\
  (exists l, ds_sub md a b = Some l /\ ds_add_in_place true a b = Some l /\ represents l (fun i => coeff a i - scoeff b i)) /\
  (exists l, ds_mul md a b = Some l /\ ds_mul_in_place a b = Some l /\ represents l (conv (coeff a) (scoeff b))).
Proof. exact dense_sparse. Qed.
Print Assumptions C32_dense_sparse.

(** (1 + 2X)(1 - 2X) = 1 - 4X^2 over GF(7), and (1 + 2X) + (1 - 2X) = 2 loses its leading term. *)
Example C32_nonvacuous : let l v := map (fun n => g7 n) v in let out := option_map (map (zval 7)) in
  canonical (l [1; 2]%Z) /\ canonical (l [1; 5]%Z) /\
  out (dense_mul (l [1; 2]%Z) (l [1; 5]%Z)) = Some [1; 0; 3]%Z /\
  map (zval 7) (dense_add (l [1; 2]%Z) (l [1; 5]%Z)) = [2]%Z /\
  out (ds_sub 10 (l [1; 2]%Z) [(1%Z, g7 2); (3%Z, g7 1)]) = Some [1; 0; 0; 6]%Z.
Proof. cbv zeta. split; [|split; [|ands; vm_compute; reflexivity]]; intro H; apply (f_equal (zval 7)) in H; vm_compute in H; discriminate. Qed.

(** Division: no result exactly for a zero divisor; otherwise the identity with a smaller remainder, which determines both. *)
Theorem C33_division : forall (K : fld) (md : Z) (f g : list K), canonical f -> canonical g -> f <> [] -> (Z.of_nat (degree f) <= md)%Z ->
  (g = [] -> dense_divide md f g = Some None) /\
  (g <> [] -> exists q r, dense_divide md f g = Some (Some (q, r)) /\ dense_div md f g = Some (Some q) /\ dense_mod md f g = Some (Some r) /\
     canonical q /\ canonical r /\ smaller r g /\ (forall k, coeff f k = conv (coeff q) (coeff g) k + coeff r k) /\
     forall q' r', canonical q' -> canonical r' -> smaller r' g -> (forall k, coeff f k = conv (coeff q') (coeff g) k + coeff r' k) -> q' = q /\ r' = r).
Proof. exact dense_division. Qed.
Print Assumptions C33_division.

(** With a sparse divisor, and a sparse dividend. *)
Theorem C33_division_sparse_divisor : forall (K : fld) (md : Z) (f : list K) (g : list (Z * K)), canonical f -> scanonical g -> f <> [] ->
  (Z.of_nat (degree f) <= md)%Z -> (sp_degree g <= md)%Z ->
  (g = [] -> ds_divide md f g = Some None) /\
  (g <> [] -> exists q r, ds_divide md f g = Some (Some (q, r)) /\ canonical q /\ canonical r /\ (Z.of_nat (length r) <= sp_degree g)%Z /\
     forall k, coeff f k = conv (coeff q) (scoeff g) k + coeff r k).
Proof. exact sparse_divisor. Qed.
Print Assumptions C33_division_sparse_divisor.
Theorem C33_division_sparse_dividend : forall (K : fld) (md : Z) (f : list (Z * K)) (g : list K), scanonical f -> canonical g -> f <> [] -> g <> [] ->
  (sp_degree f <= md)%Z ->
  exists q r, sd_divide md f g = Some (Some (q, r)) /\ canonical q /\ canonical r /\ smaller r g /\
    forall k, scoeff f k = conv (coeff q) (coeff g) k + coeff r k.
Proof. exact sd_divide_spec. Qed.
Print Assumptions C33_division_sparse_dividend.

(** X^3 + 2X + 3 = (X^2 - X + 3)(X + 1) + 0 over GF(7). *)
Example C33_nonvacuous : let l v := map (fun n => g7 n) v in
  match dense_divide 10 (l [3; 2; 0; 1]%Z) (l [1; 1]%Z) with
  | Some (Some (q, r)) => map (zval 7) q = [3; 6; 1]%Z /\ map (zval 7) r = []
  | _ => False end.
Proof. vm_compute. split; reflexivity. Qed.

(** Dividing the zero polynomial: the remainder returned is the divisor itself, so 0 = q g + r fails, for every divisor. *)
Theorem C75_zero_dividend_refuted : forall (K : fld) (md : Z) (g : list K), canonical g -> g <> [] ->
  dense_divide md [] g = Some (Some ([], g)) /\ ~ smaller g g /\
  ~ (forall k, coeff (@nil K) k = conv (coeff []) (coeff g) k + coeff g k).
Proof. exact zero_dividend. Qed.
Print Assumptions C75_zero_dividend_refuted.
(** A sparse zero divided by a dense zero has a quotient although the divisor is zero. *)
Theorem C75_sparse_zero_by_zero_refuted : forall (K : fld) (md : Z), @sd_div K md [] [] = Some (Some []).
Proof. reflexivity. Qed.
Print Assumptions C75_sparse_zero_by_zero_refuted.
(** What does hold with a zero dividend: Div gives the zero quotient. *)
Theorem C75_zero_dividend_quotient_partial : forall (K : fld) (md : Z) (g : list K), g <> [] -> dense_div md [] g = Some (Some []).
Proof. exact zero_quotient. Qed.
Print Assumptions C75_zero_dividend_quotient_partial.

Theorem C34_dense_evaluate : forall (K : fld) (threads : Z) (l : list K) (x : K), (0 < threads)%Z -> (2 * Z.of_nat (length l) + threads < 2 ^ 64)%Z ->
  dense_evaluate threads l x = eval l x.
Proof. exact evaluate_spec. Qed.
Print Assumptions C34_dense_evaluate.
(** [eval] is a ring homomorphism on the results of the operations above. *)
Theorem C34_evaluate_products : forall (K : fld) (a b m : list K) (x : K), dense_mul a b = Some m -> canonical a -> canonical b -> eval m x = eval a x * eval b x.
Proof. exact eval_product. Qed.
Print Assumptions C34_evaluate_products.
Example C34_nonvacuous : let l := map (fun n => g7 n) [1; 2; 3; 4; 5; 6; 1]%Z in
  zval 7 (dense_evaluate 3 l (g7 3)) = zval 7 (dense_evaluate 1 l (g7 3)) /\ zval 7 (dense_evaluate 3 l (g7 3)) = 4%Z /\ zval 7 (eval l (g7 3)) = 4%Z.
Proof. ands; vm_compute; reflexivity. Qed.

(** The sparse operations.  [sorts sort] is what std::sort by degree guarantees. *)
Theorem C35_sparse_ring : forall (K : fld) (sort : list (Z * K) -> list (Z * K)) (md : Z) (a b : list (Z * K)) (c : K),
  (forall l, Permutation l (sort l) /\ StronglySorted Z.le (map fst (sort l))) ->
  scanonical a -> scanonical b -> (sp_degree a + sp_degree b <= md)%Z -> (md < 2 ^ 64)%Z ->
  (exists s, sp_add md a b = Some s /\ srepresents s (fun d => scoeff a d + scoeff b d)) /\
  (exists s, sp_sub md a b = Some s /\ srepresents s (fun d => scoeff a d - scoeff b d)) /\
  (exists s, sp_negate md a = Some s /\ sp_negate_in_place a = s /\ srepresents s (fun d => - scoeff a d)) /\
  (exists s, sp_mul_scalar md a c = Some s /\ sp_mul_scalar_in_place a c = s /\ srepresents s (fun d => scoeff a d * c)) /\
  (exists s, sp_mul sort md a b = Some s /\ sp_mul_in_place sort md a b = Some s /\ srepresents s (conv (scoeff a) (scoeff b))).
Proof. exact sparse_ring. Qed.
Print Assumptions C35_sparse_ring.
(** Lookup by degree is the coefficient; conversions preserve all coefficients and give canonical forms, so they invert each other. *)
Theorem C35_lookup_and_conversion : forall (K : fld) (md : Z), (0 <= md < 2 ^ 64)%Z ->
  (forall (s : list (Z * K)) d, scanonical s -> sp_at s (Z.of_nat d) = scoeff s d) /\
  (forall s : list (Z * K), scanonical s -> (sp_degree s <= md)%Z -> exists l, sp_to_dense md s = Some l /\ represents l (scoeff s) /\ to_sparse md l = Some s) /\
  (forall l : list K, canonical l -> (Z.of_nat (degree l) <= md)%Z -> exists s, to_sparse md l = Some s /\ srepresents s (coeff l) /\ sp_to_dense md s = Some l).
Proof. exact sparse_conversion. Qed.
Print Assumptions C35_lookup_and_conversion.
(** Equality of canonical term lists is equality of polynomials. *)
Theorem C35_equality : forall (K : fld) (a b : list (Z * K)), scanonical a -> scanonical b -> (a = b <-> forall d, scoeff a d = scoeff b d).
Proof. exact scanonical_iff. Qed.
Print Assumptions C35_equality.
Example C35_nonvacuous : let out := option_map (map (fun t : Z * F7 => (fst t, zval 7 (snd t)))) in
  let a := [(0%Z, g7 1); (5%Z, g7 3)] in let b := [(2%Z, g7 2); (5%Z, g7 4)] in
  scanonical a /\ out (sp_add 100 a b) = Some [(0, 1); (2, 2)]%Z /\ out (sp_sub 100 a b) = Some [(0, 1); (2, 5); (5, 6)]%Z.
Proof.
  cbv zeta. split; [|split; vm_compute; reflexivity]. split; repeat constructor; cbn [fst snd]; try lia;
    intro H; apply (f_equal (zval 7)) in H; vm_compute in H; discriminate.
Qed.

(** Sparse evaluation, for degrees below the order [p] of the prime field in which the code reduces exponents
    ([n] is that field's number of limbs). *)
Theorem C36_sparse_evaluate : forall (K : fld) (p : Z) (n : nat) (s : list (Z * K)) (x : K), scanonical s -> (sp_degree s < p)%Z ->
  sp_evaluate p n s x = Some (seval s x).
Proof. exact sp_evaluate_spec. Qed.
Print Assumptions C36_sparse_evaluate.
(** ... which is the value of the dense form. *)
Theorem C36_sparse_is_dense_value : forall (K : fld) (p : Z) (n : nat) (s : list (Z * K)) (l : list K) (md : Z) (x : K), scanonical s ->
  (sp_degree s < p)%Z -> (sp_degree s <= md)%Z -> sp_to_dense md s = Some l -> sp_evaluate p n s x = Some (eval l x).
Proof. exact sparse_dense_value. Qed.
Print Assumptions C36_sparse_is_dense_value.
Example C36_nonvacuous : let s := [(0%Z, g7 1); (5%Z, g7 3)] in (sp_degree s < 7)%Z /\ option_map (zval 7) (sp_evaluate 7 1 s (g7 3)) = Some 2%Z.
Proof. ands; vm_compute; reflexivity. Qed.

(** For degrees at or above [p] the code computes c x^(d mod p): exponents of field elements only matter modulo p - 1. *)
Theorem C76_sparse_evaluate_high_degree : forall (K : fld) (p : Z) (n : nat) (s : list (Z * K)) (x : K), (0 < p)%Z -> scanonical s ->
  sp_evaluate p n s x = Some (fsum (map (fun t => snd t * x ^ (Z.to_nat (fst t mod p))) s)).
Proof. exact sp_evaluate_gen. Qed.
Print Assumptions C76_sparse_evaluate_high_degree.
Theorem C76_sparse_evaluate_refuted : exists (s : list (Z * F7)) (x : F7), scanonical s /\ (sp_degree s = 7)%Z /\ sp_evaluate 7 1 s x <> Some (seval s x).
Proof. exact sp_evaluate_wrong. Qed.
Print Assumptions C76_sparse_evaluate_refuted.

(** FromRoots gives the canonical vector of the product of (X - r), whose values are the products of (x - r);
    evaluating the vanishing polynomial from its roots gives those products too, for every thread count. *)
Theorem C37_from_roots : forall (K : fld) (roots : list K), exists c, from_roots roots = Some c /\ represents c (roots_product roots) /\
  length c = S (length roots) /\ forall x, eval c x = fprod (map (fun r => x - r) roots).
Proof. exact from_roots_correct. Qed.
Print Assumptions C37_from_roots.
Theorem C37_vanishing : forall (K : fld) (threads : Z) (roots : list K) (x : K), (0 < threads)%Z -> (2 * Z.of_nat (length roots) + threads < 2 ^ 64)%Z ->
  vanishing_by_roots threads roots x = fprod (map (fun r => x - r) roots).
Proof. exact vanishing_spec. Qed.
Print Assumptions C37_vanishing.
(** Lagrange interpolation at distinct points returns the only polynomial with at most n coefficients taking the given values. *)
Theorem C37_lagrange : forall (K : fld) (md threads : Z) (points evals : list K), points <> [] -> NoDup points ->
  (0 < threads)%Z -> (2 * Z.of_nat (length points) + threads < 2 ^ 64)%Z -> (Z.of_nat (length points) <= md + 1)%Z ->
  (length points <> length evals -> lagrange_interpolate md threads points evals = Some None) /\
  (length points = length evals -> exists l, lagrange_interpolate md threads points evals = Some (Some l) /\ canonical l /\
     (length l <= length points)%nat /\ (forall k, (k < length points)%nat -> eval l (nth k points 0) = nth k evals 0) /\
     forall l', canonical l' -> (length l' <= length points)%nat ->
       (forall k, (k < length points)%nat -> eval l' (nth k points 0) = nth k evals 0) -> l' = l).
Proof. exact lagrange_correct. Qed.
Print Assumptions C37_lagrange.
Example C37_nonvacuous : let l v := map (fun n => g7 n) v in
  option_map (map (zval 7)) (from_roots (l [1; 2; 3]%Z)) = Some [1; 4; 1; 1]%Z /\
  option_map (option_map (map (zval 7))) (lagrange_interpolate 10 2 (l [1; 2; 4]%Z) (l [3; 5; 1]%Z)) = Some (Some [3; 6; 1]%Z).
Proof. ands; vm_compute; reflexivity. Qed.

(** Repeated points with contradictory values are not rejected: an answer is returned that takes neither value.
    With no points at all the code reads outside its buffers. *)
Theorem C77_lagrange_duplicates_refuted : exists points evals : list F7, length points = length evals /\ ~ NoDup points /\
  exists l, lagrange_interpolate 10 1 points evals = Some (Some l) /\ forall k, (k < length points)%nat -> eval l (nth k points 0) <> nth k evals 0.
Proof. exact lagrange_duplicates. Qed.
Print Assumptions C77_lagrange_duplicates_refuted.
Theorem C77_lagrange_empty_refuted : forall (K : fld) (md threads : Z), (0 < threads < 2 ^ 64)%Z -> @lagrange_interpolate K md threads [] [] = None.
Proof. exact interpolate_empty. Qed.
Print Assumptions C77_lagrange_empty_refuted.

(** Fold: the even part plus r times the odd part. *)
Theorem C38_dense_fold : forall (K : fld) (md : Z) (l : list K) (r : K), Nat.modulo (length l) 2 = 0%nat -> (Z.of_nat (degree l) <= md)%Z ->
  exists c, dense_fold md l r = Some c /\ represents c (folded (coeff l) r).
Proof. exact fold_even_spec. Qed.
Print Assumptions C38_dense_fold.
Theorem C38_sparse_fold : forall (K : fld) (md : Z) (s : list (Z * K)) (r : K), scanonical s -> (sp_degree s <= md)%Z ->
  exists s', sp_fold md s r = Some s' /\ srepresents s' (folded (scoeff s) r).
Proof. exact sp_fold_spec. Qed.
Print Assumptions C38_sparse_fold.
Example C38_nonvacuous : option_map (map (zval 7)) (dense_fold 10 (map (fun n => g7 n) [1; 2; 3; 4]%Z) (g7 2)) = Some [5; 4]%Z /\
  option_map (map (fun t => (fst t, zval 7 (snd t)))) (sp_fold 10 [(0%Z, g7 1); (1%Z, g7 3); (5%Z, g7 3)] (g7 2)) = Some [(2, 6)]%Z.
Proof. ands; vm_compute; reflexivity. Qed.
(** With an odd number of coefficients the last odd coefficient is read past the end of the vector. *)
Theorem C78_dense_fold_odd_refuted : forall (K : fld) (md : Z) (l : list K) (r : K), Nat.modulo (length l) 2 = 1%nat -> dense_fold md l r = None.
Proof. exact fold_odd_undefined. Qed.
Print Assumptions C78_dense_fold_odd_refuted.
Example C78_nonvacuous : canonical [g7 1; g7 2; g7 3] /\ dense_fold 10 [g7 1; g7 2; g7 3] (g7 2) = None.
Proof. split; [|reflexivity]. intro H; apply (f_equal (zval 7)) in H; vm_compute in H; discriminate. Qed.
