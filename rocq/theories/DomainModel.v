(** Model of univariate_evaluation_domain.h 255-433: Lagrange coefficients, vanishing and filter polynomials.
    Only definitions. [None] is a CHECK failure or a failed unwrap(). *)
From Coq Require Import ZArith List Bool.
From Verif Require Import Field BigIntModel ParallelizeModel SemigroupModel PolyModel FFTModel.
Import ListNotations.
Open Scope fld_scope.

Section Domain.
  Context {K : fld}.
  Notation pow x n := (do_pow (1 : K) fmul (fun y => y * y) [n%Z] x).
  Notation inverse := (fun x : K => if feqb x 0 then None else Some (finv x)).

  (** univariate_evaluation_domain.h:383-390 EvaluateVanishingPolynomial. *)
  Definition evaluate_vanishing (d : domain K) (tau : K) : K := pow tau (Z.of_nat (d_size d)) - d_off_pow d.
  (** univariate_evaluation_domain.h:371-379 GetVanishingPolynomial. [md] is MaxDegree. *)
  Definition get_vanishing (md : Z) (d : domain K) : option (list (Z * K)) :=
    sp_make md false [(0%Z, - d_off_pow d); (Z.of_nat (d_size d), 1)].

  (** univariate_evaluation_domain.h:314-323: [todo] entries left, omega is the element of the next one. *)
  Fixpoint find_tau (g tau omega : K) (todo : nat) : list K :=
    match todo with
    | O => []
    | S n => if feqb omega tau then 1 :: repeat 0 n else 0 :: find_tau g tau (omega * g) n
    end.
  (** univariate_evaluation_domain.h:347-362: the loop of a chunk of [len] entries (the last iteration is
      peeled off in the code; no chunk is empty). *)
  Fixpoint lagrange_inverses (g ginv tau l_pow neg_omega : K) (len : nat) : list K :=
    match len with
    | O => []
    | S n => l_pow * (tau + neg_omega) :: lagrange_inverses g ginv tau (l_pow * ginv) (neg_omega * g) n
    end.
  (** univariate_evaluation_domain.h:287-369 EvaluatePartialLagrangeCoefficients for a range that starts at [from]
      and has [size] indices. *)
  Definition partial_lagrange (threads : Z) (d : domain K) (tau : K) (from : Z) (size : nat) : option (list K) :=
    if Nat.ltb (d_size d) size then None
    else if Nat.eqb size 0 then Some []
    else
      let z := evaluate_vanishing d tau in
      let omega := get_element d from in
      if feqb z 0 then Some (find_tau (d_gen d) tau omega size)
      else
        let t := d_size_elem d * d_off_pow d in
        match inverse (z * omega) with
        | None => None
        | Some i =>
            let l_i := i * t in
            let neg := - omega in
            match parallelize threads None
                    (fun idx chunk s =>
                       let n := trunc 64 (idx * chunk) in
                       lagrange_inverses (d_gen d) (d_gen_inv d) tau (l_i * pow (d_gen_inv d) n) (neg * pow (d_gen d) n) (length s))
                    (repeat 0 size) with
            | None => None
            | Some inv => batch_inverse 0 1 fmul inverse (fun x => feqb x 0) (fun x => feqb x 1) threads true inv inv 1
            end
        end.
  (** univariate_evaluation_domain.h:279-282 EvaluateAllLagrangeCoefficients. *)
  Definition all_lagrange (threads : Z) (d : domain K) (tau : K) : option (list K) := partial_lagrange threads d tau 0 (d_size d).

  (** univariate_evaluation_domain.h:393-411 GetFilterPolynomial; the division is
      univariate_polynomial_ops.h:760-769 DivMod(S, S). [sort] is the sort of the product of sparse polynomials. *)
  Definition get_filter (sort : list (Z * K) -> list (Z * K)) (md : Z) (d sub : domain K) : option (list K) :=
    match get_vanishing md d, sp_make md false [(0%Z, d_size_elem sub * d_off_pow sub)],
          get_vanishing md sub, sp_make md false [(0%Z, d_size_elem d)] with
    | Some v, Some c, Some vs, Some cs =>
        match sp_mul sort md v c, sp_mul sort md vs cs with
        | Some num, Some den =>
            match (if sp_is_zero num then option_map (fun o => Some ([], o)) (sp_to_dense md den)
                   else match sp_to_dense md num with None => None | Some n => ds_divide md n den end) with
            | Some (Some (q, r)) => if is_zero r then Some q else None
            | _ => None
            end
        | _, _ => None
        end
    | _, _, _, _ => None
    end.
  (** univariate_evaluation_domain.h:413-432 EvaluateFilterPolynomial; [None] is nullopt. *)
  Definition evaluate_filter (d sub : domain K) (tau : K) : option K :=
    let v := evaluate_vanishing sub tau in
    if feqb v 0 then Some 1
    else match inverse (d_size_elem d * v) with
         | None => None
         | Some i => Some (d_size_elem sub * (evaluate_vanishing d tau * i))
         end.
End Domain.
