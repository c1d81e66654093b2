(** Model of tachyon/crypto/commitments/fri/two_adic_multiplicative_coset.h (TC) and of TwoAdicFRI::InterpolateCoset in two_adic_fri.h (TF). Only definitions.
    ExtF and its base field F are one field [K]. [None] is a failed CHECK, unwrap() of a failed inversion, an undefined shift or an access out of bounds. *)
From Coq Require Import ZArith List Arith Bool.
From Verif Require Import Field BitsModel ParallelizeModel SemigroupModel FFTModel.
Import ListNotations.
Open Scope fld_scope.

Section Coset.
  Context {K : fld}.
  Notation pow x n := (do_pow (1 : K) fmul (fun y => y * y) [n%Z] x).
  Notation batch_inv l := (batch_inverse_serial 0 1 fmul (fun x : K => if feqb x 0 then None else Some (finv x)) (fun x => feqb x 0) (fun x => feqb x 1) true l l 1).
  (** kTwoAdicity, kTwoAdicRootOfUnity and kSubgroupGenerator of F. *)
  Variables (adicity : nat) (root subgroup_gen : K).

  (** math/base/semigroups.h:285-291 ExpPowOfTwo. *)
  Definition exp_pow2 (x : K) (log : nat) : K := Nat.iter log (fun v => v * v) x.
  (** The constructor, TC:29-34. *)
  Definition new_coset (log_n : nat) (shift : K) : option (domain K) :=
    match create_domain adicity root (2 ^ log_n) with Some d => get_coset d shift | None => None end.
  (** GetNextPoint, TC:41-44. *)
  Definition next_point (d : domain K) (x : K) : K := x * d_gen d.
  (** CreateDisjointDomain, TC:46-50. *)
  Definition disjoint_domain (d : domain K) (min_size : Z) : option (domain K) :=
    new_coset (Z.to_nat (safe_log2_ceiling 64 min_size)) (d_off d * subgroup_gen).
  (** GetZpAtPoint, TC:52-57. *)
  Definition zp_at (d : domain K) (x : K) : K := exp_pow2 (x * d_off_inv d) (d_log d) - 1.
  (** SplitDomains, TC:59-69; more chunks than points make log_size - log_chunks wrap and the shift undefined. *)
  Fixpoint split_loop (count log : nat) (f g : K) : option (list (domain K)) :=
    match count with
    | O => Some []
    | S c => match new_coset log f, split_loop c log (f * g) g with Some d, Some r => Some (d :: r) | _, _ => None end
    end.
  Definition split_domains (d : domain K) (num_chunks : nat) : option (list (domain K)) :=
    match checked_log2 64 (Z.of_nat num_chunks) with
    | None => None
    | Some log => if (d_log d <? Z.to_nat log)%nat then None else split_loop num_chunks (d_log d - Z.to_nat log) (d_off d) (d_gen d)
    end.
  (** LagrangeSelectors: first row, last row, transition, inverse of the vanishing polynomial. *)
  Record selectors (A : Type) : Type := { s_first : A; s_last : A; s_transition : A; s_inv_zeroifier : A }.
  (** GetSelectorsAtPoint, TC:71-82. *)
  Definition selectors_at (d : domain K) (point : K) : option (selectors K) :=
    let u := point * d_off_inv d in
    let z_h := exp_pow2 u (d_log d) - 1 in
    let transition := u - d_gen_inv d in
    if feqb (u - 1) 0 || feqb transition 0 || feqb z_h 0 then None
    else Some {| s_first := z_h * finv (u - 1); s_last := z_h * finv transition; s_transition := transition; s_inv_zeroifier := finv z_h |}.

  (** The chunk of TC:106-117: every entry of the chunk is the same, the loop does not update [eval]. *)
  Definition evals_chunk (d : domain K) (s_pow_n : K) (call : Z * Z * Z) : list K :=
    match call with (_, start, len) => repeat (s_pow_n * pow (d_gen d) start - 1) (Z.to_nat len) end.
  (** The span of [chunk_size] entries given to BatchInverseInPlaceSerial, TC:114-116, must lie in the vector. *)
  Definition inv_chunk (evals : list K) (chunk : Z) (call : Z * Z * Z) : option (list K) :=
    match call with
    | (_, start, len) =>
        if (Z.to_nat start + Z.to_nat chunk <=? length evals)%nat then
          match batch_inv (firstn (Z.to_nat chunk) (skipn (Z.to_nat start) evals)) with
          | Some l => Some (firstn (Z.to_nat len) l)
          | None => None
          end
        else None
    end.
  (** x, x * g, x * g^2, ... of a chunk, TC:138-144. *)
  Fixpoint walk (x g : K) (n : nat) : list K := match n with O => [] | S m => x :: walk (x * g) g m end.
  (** The body of TC:132-157 on one chunk: the four output slices. *)
  Definition coset_chunk (d coset : domain K) (coset_i : K) (evals inv : list K) (call : Z * Z * Z) : option (list K * list K * list K * list K) :=
    match call with
    | (_, start, len) =>
        let xs := walk (d_off coset * pow (d_gen coset) start) (d_gen coset) (Z.to_nat len) in
        let idx := map (fun i => Nat.modulo i (length evals)) (seq (Z.to_nat start) (Z.to_nat len)) in
        match batch_inv (map (fun x => x - 1) xs), batch_inv (map (fun x => x - coset_i) xs) with
        | Some f, Some l =>
            Some (map (fun p => fst p * nth (snd p) evals 0) (combine f idx), map (fun p => fst p * nth (snd p) evals 0) (combine l idx),
                  map (fun x => x - d_gen_inv d) xs, map (fun i => nth i inv 0) idx)
        | _, _ => None
        end
    end.
  Fixpoint gather (l : list (option (list K * list K * list K * list K))) : option (selectors (list K)) :=
    match l with
    | [] => Some {| s_first := []; s_last := []; s_transition := []; s_inv_zeroifier := [] |}
    | Some (a, b, c, e) :: r =>
        match gather r with
        | Some s => Some {| s_first := a ++ s_first _ s; s_last := b ++ s_last _ s; s_transition := c ++ s_transition _ s; s_inv_zeroifier := e ++ s_inv_zeroifier _ s |}
        | None => None
        end
    | None :: _ => None
    end.
  Fixpoint concat_opt (l : list (option (list K))) : option (list K) :=
    match l with [] => Some [] | Some a :: r => match concat_opt r with Some s => Some (a ++ s) | None => None end | None :: _ => None end.
  (** GetSelectorsOnCoset, TC:84-161. CHECK_GE compares the wrong way round; with a smaller coset rate_bits wraps and 1 << rate_bits is undefined. *)
  Definition selectors_on (threads : Z) (d coset : domain K) : option (selectors (list K)) :=
    if negb (feqb (d_off d) 1) then None
    else if feqb (d_off coset) 1 then None
    else if negb (d_log coset <=? d_log d)%nat then None
    else if (d_log coset <? d_log d)%nat then None
    else
      let evals_size := (2 ^ (d_log coset - d_log d))%nat in
      let s_pow_n := exp_pow2 (d_off coset) (d_log d) in
      let chunk := num_elements_per_thread threads (Z.of_nat evals_size) None in
      let calls := chunk_calls (Z.of_nat evals_size) chunk in
      let evals := concat (map (evals_chunk d s_pow_n) calls) in
      match concat_opt (map (inv_chunk evals chunk) calls) with
      | None => None
      | Some inv =>
          let coset_i := exp_pow2 (d_gen d) (d_log d) * d_gen_inv d in
          let sz := Z.of_nat (d_size coset) in
          gather (map (coset_chunk d coset coset_i evals inv) (chunk_calls sz (num_elements_per_thread threads sz None)))
      end.

  (** The chunk body of InterpolateCoset, TF:404-426; [rows] are the rows from [start] on. *)
  Fixpoint weighted_sum (acc : list K) (pw w : K) (diff_invs : list K) (rows : list (list K)) : list K :=
    match diff_invs, rows with
    | di :: ds, row :: rs => weighted_sum (map (fun p => fst p + di * pw * snd p) (combine acc row)) (pw * w) w ds rs
    | _, _ => acc
    end.
  Definition interpolate_chunk (num_cols : nat) (shift w point : K) (evals : list (list K)) (call : Z * Z * Z) : option (list K) :=
    match call with
    | (_, start, len) =>
        let p0 := pow w start in
        match batch_inv (map (fun x => point - x) (walk (shift * p0) w (Z.to_nat len))) with
        | Some di => Some (weighted_sum (repeat 0 num_cols) p0 w di (firstn (Z.to_nat len) (skipn (Z.to_nat start) evals)))
        | None => None
        end
    end.
  Fixpoint sum_chunks (acc : list K) (sums : list (option (list K))) : option (list K) :=
    match sums with
    | [] => Some acc
    | Some s :: r => sum_chunks (map (fun p => fst p + snd p) (combine acc s)) r
    | None :: _ => None
    end.
  (** InterpolateCoset, TF:390-442. *)
  Definition interpolate_coset (threads : Z) (num_cols : nat) (evals : list (list K)) (shift point : K) : option (list K) :=
    let n := Z.of_nat (length evals) in
    match checked_log2 64 n, get_root_of_unity adicity root n with
    | Some log, Some w =>
        let sums := map (interpolate_chunk num_cols shift w point evals) (chunk_calls n (num_elements_per_thread threads n None)) in
        let zeroifier := exp_pow2 point (Z.to_nat log) - exp_pow2 shift (Z.to_nat log) in
        let denominator := fnat (length evals) * pow shift (n - 1) in
        match sum_chunks (repeat 0 num_cols) sums with
        | Some s => if feqb denominator 0 then None else Some (map (fun x => x * (zeroifier * finv denominator)) s)
        | None => None
        end
    | _, _ => None
    end.
End Coset.
Arguments s_first {A}. Arguments s_last {A}. Arguments s_transition {A}. Arguments s_inv_zeroifier {A}.
