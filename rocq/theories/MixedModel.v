(** Model of math/polynomials/univariate/mixed_radix_evaluation_domain.h and of math/finite_fields/prime_field_util.cc.
    Only definitions. [None] is a CHECK failure or an out-of-bounds access. Sizes are nat: n < 2^64 is not needed for the
    index arithmetic below, which never exceeds n. Not modelled: ComputeSizeAndFactors and the mixed-radix
    GetRootOfUnity, which only choose [n] and [omega]. *)
From Coq Require Import ZArith List Bool.
From Verif Require Import Field BigIntModel BitsModel ParallelizeModel SemigroupModel PolyModel FFTModel.
Import ListNotations.
Open Scope fld_scope.

(** prime_field_util.cc:10-21 ComputeAdicity, 24-35 ComputeTrace. [fuel] exceeds the number of divisions. *)
Fixpoint adicity_loop (fuel : nat) (k n a : Z) : Z :=
  match fuel with
  | O => a
  | S f => if (1 <? n)%Z then (if (n mod k =? 0)%Z then adicity_loop f k (n / k) (a + 1) else a) else a
  end.
Definition compute_adicity (k n : Z) : Z := adicity_loop (S (Z.to_nat (Z.log2 n))) k n 0.
Fixpoint trace_loop (fuel : nat) (k n : Z) : Z :=
  match fuel with
  | O => 0
  | S f => if (1 <? n)%Z then (if (n mod k =? 0)%Z then trace_loop f k (n / k) else n) else 0
  end.
Definition compute_trace (k n : Z) : Z := trace_loop (S (Z.to_nat (Z.log2 n))) k n.

(** mixed_radix_evaluation_domain.h:38-45 MaxDegreeForMixedRadixEvaluationDomain: the loop variable shadows the
    accumulator. [None]: the loop has not ended within [fuel] rounds. *)
Fixpoint shadow_loop (fuel : nat) (base adicity i : Z) : option unit :=
  match fuel with
  | O => None
  | S f => if (i <=? adicity)%Z then shadow_loop f base adicity (i * base + 1) else Some tt
  end.
Definition max_degree_mixed (base small_adicity two_adicity : Z) : option Z :=
  match shadow_loop (Z.to_nat small_adicity + 2) base small_adicity 0 with
  | None => None
  | Some tt => Some (1 * 2 ^ two_adicity - 1)%Z
  end.

Section Mixed.
  Context {K : fld}.
  Notation pow x n := (do_pow (1 : K) fmul (fun y => y * y) [Z.of_nat n] x).

  (** :124-155 MixedRadixFFTPermute: [rounds] digits in base [b]; (res, shift, i). *)
  Fixpoint permute_digits (b rounds res shift i : nat) : nat * nat * nat :=
    match rounds with
    | O => (res, shift, i)
    | S r => let shift := Nat.div shift b in permute_digits b r (res + Nat.modulo i b * shift) shift (Nat.div i b)
    end.
  Definition mixed_permute (two_adicity q_adicity q n i : nat) : nat :=
    match permute_digits 2 two_adicity 0 n i with
    | (res, shift, i) => fst (fst (permute_digits q q_adicity res shift i))
    end.
  (** :230-240 Applying the permutation: the while loop that starts at [k]; then the loop over k. *)
  Fixpoint cycle_loop (perm : nat -> nat) (fuel k i : nat) (st : list bool * list K) : option (list bool * list K) :=
    match fuel with
    | O => None
    | S f =>
        match nth_error (fst st) i with
        | None => None
        | Some true => Some st
        | Some false =>
            let dest := perm i in
            match nth_error (snd st) dest, nth_error (snd st) k with
            | Some x, Some y => cycle_loop perm f k dest (set_nth i true (fst st), set_nth dest y (set_nth k x (snd st)))
            | _, _ => None
            end
        end
    end.
  Definition apply_permutation (perm : nat -> nat) (l : list K) : option (list K) :=
    match ofold (fun st k => cycle_loop perm (S (length l)) k k st) (seq 0 (length l)) (repeat false (length l), l) with
    | None => None
    | Some st => Some (snd st)
    end.

  (** :257-263: terms[i-1] = a[k + j + i m] w_j^i for i = 1 .. q-1. *)
  Fixpoint q_terms (l : list K) (w_j w : K) (pos m todo : nat) : option (list K) :=
    match todo with
    | O => Some []
    | S r => match nth_error l (pos + m) with
             | None => None
             | Some x => option_map (cons (x * w)) (q_terms l w_j (w * w_j) (pos + m) m r)
             end
    end.
  (** :265-271: the loop over i. [base_term] is a reference to a[k + j], which is read anew for each i. *)
  Definition q_write (roots : list K) (terms : list K) (q kj m : nat) (l : list K) (i : nat) : option (list K) :=
    match nth_error l kj with
    | None => None
    | Some base_term =>
        match nth_error l (kj + i * m) with
        | None => None
        | Some _ =>
            let v := fold_left (fun acc t => acc + snd t * nth (Nat.modulo (i * fst t) q) roots 0) (combine (seq 1 (q - 1)) terms) base_term in
            Some (set_nth (kj + i * m) v l)
        end
    end.
  Definition q_butterfly (roots : list K) (q m k : nat) (w_m : K) (st : list K * K) (j : nat) : option (list K * K) :=
    match q_terms (fst st) (snd st) (snd st) (k + j) m (q - 1) with
    | None => None
    | Some terms => match ofold (q_write roots terms q (k + j) m) (seq 0 q) (fst st) with
                    | None => None
                    | Some l => Some (l, snd st * w_m)
                    end
    end.
  (** :251-276, one pass. *)
  Definition q_pass (omega : K) (roots : list K) (q m : nat) (l : list K) : option (list K) :=
    let n := length l in
    let w_m := pow omega (Nat.div n (q * m)) in
    ofold (fun l b => match ofold (q_butterfly roots q m (b * (q * m)) w_m) (seq 0 m) (l, 1) with
                      | None => None
                      | Some st => Some (fst st)
                      end)
          (seq 0 (Nat.div (n + q * m - 1) (q * m))) l.
  (** :243-247 the q-th roots of unity. *)
  Fixpoint root_powers (w x : K) (todo : nat) : list K := match todo with O => [] | S t => x :: root_powers w (x * w) t end.
  Definition q_passes (omega : K) (q q_adicity : nat) (l : list K) : option (list K) :=
    let roots := root_powers (pow omega (Nat.div (length l) q)) 1 q in
    ofold (fun l i => q_pass omega roots q (Nat.pow q i) l) (seq 0 q_adicity) l.

  (** :285-292 the inner loop of a radix-2 pass: (a, w). *)
  Definition two_step (m k : nat) (w_m : K) (st : list K * K) (j : nat) : option (list K * K) :=
    match bfly butterfly_out_in (fst st) (k + j, k + m + j, Some (snd st))%nat with
    | None => None
    | Some l => Some (l, snd st * w_m)
    end.
  (** :282-295 one radix-2 pass. *)
  Definition two_pass (omega : K) (m : nat) (l : list K) : option (list K) :=
    let n := length l in
    let w_m := pow omega (Nat.div n (2 * m)) in
    ofold (fun l b => match ofold (two_step m (b * (2 * m)) w_m) (seq 0 m) (l, 1) with
                      | None => None
                      | Some st => Some (fst st)
                      end)
          (seq 0 (Nat.div (n + 2 * m - 1) (2 * m))) l.

  (** :195-296 SerialFFT. [q] is kSmallSubgroupBase. *)
  Definition serial_fft (sched : scheduler) (q : nat) (omega : K) (two_adicity : nat) (l : list K) : option (list K) :=
    let n := length l in
    let q_adicity := Z.to_nat (compute_adicity (Z.of_nat q) (Z.of_nat n)) in
    if negb (Nat.eqb n (Nat.pow q q_adicity * Nat.pow 2 two_adicity)) then None
    else
      match (if Nat.ltb 0 q_adicity then
               match apply_permutation (mixed_permute two_adicity q_adicity q n) l with
               | None => None
               | Some l => q_passes omega q q_adicity l
               end
             else swap_bitrev sched 0 l n (Z.of_nat two_adicity)) with
      | None => None
      | Some l => ofold (fun l i => two_pass omega (Nat.pow q q_adicity * Nat.pow 2 i) l) (seq 0 two_adicity) l
      end.

  (** :342-354 kth_poly_coeffs: (coefficients so far, elt). *)
  Definition coset_inner (l : list K) (coset_size : nat) (omega_step : K) (i : nat) (st : K * K) (c : nat) : option (K * K) :=
    match nth_error l (i + c * coset_size) with
    | None => None
    | Some x => Some (fst st + x * snd st, snd st * omega_step)
    end.
  Definition coset_outer (l : list K) (num_threads coset_size : nat) (omega_k omega_step : K) (st : list K * K) (i : nat) : option (list K * K) :=
    match ofold (coset_inner l coset_size omega_step i) (seq 0 num_threads) (0, snd st) with
    | None => None
    | Some (x, elt) => Some (fst st ++ [x], elt * omega_k)
    end.
  (** :323-360 the k-th sub-transform. *)
  Definition coset_fft (sched : scheduler) (q : nat) (omega : K) (l : list K) (num_threads coset_size k : nat) : option (list K) :=
    match ofold (coset_outer l num_threads coset_size (pow omega k) (pow omega (k * coset_size))) (seq 0 coset_size) ([], 1) with
    | None => None
    | Some st => serial_fft sched q (pow omega num_threads) (Z.to_nat (compute_adicity 2 (Z.of_nat coset_size))) (fst st)
    end.
  (** :299-368 ParallelFFT; the iterations of the parallel loop write different entries of tmp. *)
  Definition parallel_fft (sched : scheduler) (q : nat) (omega : K) (two_adicity log_threads : nat) (l : list K) : option (list K) :=
    if Nat.ltb two_adicity log_threads then None
    else
      let num_threads := Nat.pow 2 log_threads in
      if negb (Nat.eqb (Nat.modulo (length l) num_threads) 0) then None
      else
        let coset_size := Nat.div (length l) num_threads in
        match all_some (map (coset_fft sched q omega l num_threads coset_size) (seq 0 num_threads)) with
        | None => None
        | Some tmp =>
            all_some (map (fun i => match nth_error tmp (Nat.modulo i num_threads) with
                                    | None => None
                                    | Some c => nth_error c (Nat.div i num_threads)
                                    end) (seq 0 (length l)))
        end.
  (** :177-193 BestFFT; [openmp] is the number of threads when OpenMP is on. *)
  Definition best_fft (sched : scheduler) (openmp : option Z) (q : nat) (omega : K) (log_size : nat) (l : list K) : option (list K) :=
    match openmp with
    | None => serial_fft sched q omega log_size l
    | Some threads =>
        let log_threads := Z.to_nat (log2_floor 32 threads) in
        if Nat.leb log_size log_threads then serial_fft sched q omega log_size l
        else parallel_fft sched q omega log_size log_threads l
    end.
  (** :93-100 DoFFT. *)
  Definition mixed_do_fft (sched : scheduler) (threads : Z) (openmp : bool) (q : nat) (d : domain K) (evals : list K) : option (list K) :=
    match (if feqb (d_off d) 1 then Some evals else distribute_powers threads evals (d_off d)) with
    | None => None
    | Some l => best_fft sched (if openmp then Some threads else None) q (d_gen d) (d_log d) (vec_resize 0 l (d_size d))
    end.
  (** :102-117 DoIFFT. *)
  Definition mixed_do_ifft (sched : scheduler) (threads : Z) (openmp : bool) (q : nat) (d : domain K) (evals : list K) : option (list K) :=
    match best_fft sched (if openmp then Some threads else None) q (d_gen_inv d) (d_log d) (vec_resize 0 evals (d_size d)) with
    | None => None
    | Some l =>
        match (if feqb (d_off d) 1 then Some (map (fun x => x * d_size_inv d) l)
               else distribute_powers_and_mul threads l (d_off_inv d) (d_size_inv d)) with
        | None => None
        | Some l => Some (remove_high l)
        end
    end.
End Mixed.
