(** Property theorems C41, C42, C79: Lagrange coefficients, vanishing and filter polynomials of radix-2 domains.
    FFTSpec.v defines [radix2_domain] and [generator], DomainSpec.v [coset_points] and [lagrange_basis]. *)
From Coq Require Import ZArith List Bool Arith Lia.
From Verif Require Import Field Zp PolySpec PolyModel PolyProof5 FFTModel FFTSpec FFTProps DomainModel DomainSpec DomainExtra.
Import ListNotations.
Open Scope fld_scope.
Local Ltac ands := cbv zeta; repeat match goal with |- _ /\ _ => split end.

(** Up to 127 threads (beyond that BatchInverse, which the function calls, fails: C16). *)
Theorem C41_lagrange : forall (K : fld) (adicity : nat) (root : K) (k : nat) (h : K) (d : domain K) (threads : Z) (tau : K),
  (adicity < 62)%nat -> primitive_root root (2 ^ adicity) -> (k <= adicity)%nat -> radix2_domain adicity root k h d -> (0 < threads < 128)%Z ->
  let xs := coset_points h (generator adicity root k) (2 ^ k) in
  (exists l, all_lagrange threads d tau = Some l /\ l = map (lagrange_basis xs tau) (seq 0 (2 ^ k)) /\
     forall f : list K, (length f <= 2 ^ k)%nat -> fsum (map (fun i => eval f (nth i xs 0) * nth i l 0) (seq 0 (2 ^ k))) = eval f tau) /\
  (forall from size, (from + size <= 2 ^ k)%nat -> partial_lagrange threads d tau (Z.of_nat from) size = Some (map (lagrange_basis xs tau) (seq from size))) /\
  (forall from size, (2 ^ k < size)%nat -> partial_lagrange threads d tau from size = None).
Proof. exact lagrange_all. Qed.
Print Assumptions C41_lagrange.
(** On the coset {3, 5, 14, 12} of GF(17): a point outside, and the second point. *)
Example C41_nonvacuous :
  let run tau := match create_domain 4 (g17 3) 4 with
                 | Some d0 => match get_coset d0 (g17 3) with
                              | Some d => option_map (map (zval 17)) (all_lagrange 3 d tau)
                              | None => None end
                 | None => None end in
  run (g17 2) = Some (map (zval 17) (map (lagrange_basis (coset_points (g17 3) (g17 13) 4) (g17 2)) (seq 0 4))) /\
  run (g17 5) = Some [0; 1; 0; 0]%Z /\ primitive_root (g17 3) (2 ^ 4).
Proof. ands; [vm_compute; reflexivity|vm_compute; reflexivity|exact root17]. Qed.

Theorem C42_vanishing : forall (K : fld) (adicity : nat) (root : K) (k : nat) (h : K) (d : domain K) (md : Z) (tau : K),
  (adicity < 62)%nat -> primitive_root root (2 ^ adicity) -> (k <= adicity)%nat -> radix2_domain adicity root k h d -> (Z.of_nat (2 ^ k) <= md)%Z ->
  let xs := coset_points h (generator adicity root k) (2 ^ k) in
  evaluate_vanishing d tau = fprod (map (fun x => tau - x) xs) /\ (evaluate_vanishing d tau = 0 <-> In tau xs) /\
  exists s, get_vanishing md d = Some s /\ scanonical s /\ seval s tau = evaluate_vanishing d tau.
Proof. exact vanishing_all. Qed.
Print Assumptions C42_vanishing.

(** A domain without offset; the subdomain may be a coset. GetFilterPolynomial aborts exactly when the subdomain has a
    point outside the domain. *)
Theorem C42_filter : forall (K : fld) (adicity : nat) (root : K) (k : nat) (d : domain K) (k' : nat) (h' : K) (sub : domain K)
    (sort : list (Z * K) -> list (Z * K)) (md : Z),
  (adicity < 62)%nat -> primitive_root root (2 ^ adicity) -> (k <= adicity)%nat -> (k' <= adicity)%nat ->
  radix2_domain adicity root k 1 d -> radix2_domain adicity root k' h' sub -> sorts K sort ->
  (Z.of_nat (2 ^ k) <= md < 2 ^ 64)%Z -> (Z.of_nat (2 ^ k') <= md)%Z ->
  let xs := coset_points 1 (generator adicity root k) (2 ^ k) in let ys := coset_points h' (generator adicity root k') (2 ^ k') in
  match get_filter sort md d sub with
  | Some q => (forall y, In y ys -> In y xs) /\ canonical q /\
              (forall x, (In x ys -> eval q x = 1) /\ (~ In x ys -> In x xs -> eval q x = 0)) /\
              (h' = 1 -> forall x, evaluate_filter d sub x = Some (eval q x))
  | None => exists y, In y ys /\ ~ In y xs
  end.
Proof. exact filter_subgroup. Qed.
Print Assumptions C42_filter.

(** With cosets: the full claim (1 on the subdomain, 0 on the rest, EvaluateFilterPolynomial its value) holds only up to
    these factors: the filter polynomial is h^(2^k) on the subdomain, and off the subdomain it is h'^(2^k') times what
    EvaluateFilterPolynomial returns. *)
Theorem C79_filter_cosets_partial : forall (K : fld) (adicity : nat) (root : K) (k : nat) (h : K) (d : domain K) (k' : nat) (h' : K) (sub : domain K)
    (sort : list (Z * K) -> list (Z * K)) (md : Z),
  (adicity < 62)%nat -> primitive_root root (2 ^ adicity) -> (k <= adicity)%nat -> (k' <= adicity)%nat ->
  radix2_domain adicity root k h d -> radix2_domain adicity root k' h' sub -> sorts K sort ->
  (Z.of_nat (2 ^ k) <= md < 2 ^ 64)%Z -> (Z.of_nat (2 ^ k') <= md)%Z ->
  let xs := coset_points h (generator adicity root k) (2 ^ k) in let ys := coset_points h' (generator adicity root k') (2 ^ k') in
  match get_filter sort md d sub with
  | Some q => (forall y, In y ys -> In y xs) /\ canonical q /\
              (forall x, (In x ys -> eval q x = h ^ (2 ^ k)) /\ (~ In x ys -> In x xs -> eval q x = 0) /\
                 exists v, evaluate_filter d sub x = Some v /\ (In x ys -> v = 1) /\ (~ In x ys -> eval q x = v * h' ^ (2 ^ k')))
  | None => exists y, In y ys /\ ~ In y xs
  end.
Proof. exact filter_all. Qed.
Print Assumptions C79_filter_cosets_partial.

Definition filter17 (kd ks : nat) (hd hs x : F17) : option (option Z * option Z) :=
  match create_domain 4 (g17 3) (2 ^ kd), create_domain 4 (g17 3) (2 ^ ks) with
  | Some d0, Some s0 =>
      match get_coset d0 hd, get_coset s0 hs with
      | Some d, Some s => Some (option_map (fun q => zval 17 (eval q x)) (get_filter isort 100 d s), option_map (zval 17) (evaluate_filter d s x))
      | _, _ => None
      end
  | _, _ => None
  end.
(** GF(17). Domain 3<13> of size 4, subdomain {3, 14}: the filter polynomial is 13, not 1, at the point 3 of the subdomain.
    Domain <13> of size 4, subdomain {13, 4}: at 2 the filter polynomial is 7 and EvaluateFilterPolynomial gives 10. *)
Theorem C79_filter_cosets_refuted :
  filter17 2 1 (g17 3) (g17 3) (g17 3) = Some (Some 13%Z, Some 1%Z) /\
  filter17 2 1 (g17 1) (g17 13) (g17 2) = Some (Some 7%Z, Some 10%Z) /\ sorts F17 isort.
Proof. ands; [vm_compute; reflexivity|vm_compute; reflexivity|exact (isort_sorts F17)]. Qed.
Print Assumptions C79_filter_cosets_refuted.
Example C42_nonvacuous :
  filter17 2 1 (g17 1) (g17 1) (g17 16) = Some (Some 1%Z, Some 1%Z) /\ filter17 2 1 (g17 1) (g17 1) (g17 13) = Some (Some 0%Z, Some 0%Z) /\
  filter17 2 1 (g17 1) (g17 1) (g17 5) = Some (Some 13%Z, Some 13%Z) /\ filter17 1 2 (g17 1) (g17 1) (g17 5) = Some (None, Some 4%Z).
Proof. ands; vm_compute; reflexivity. Qed.
