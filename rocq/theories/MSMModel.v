(** Model of multi-scalar multiplication: math/elliptic_curves/msm/algorithms/pippenger/{pippenger_base.h, pippenger.h, pippenger_adapter.h},
    msm/msm_ctx.h, msm/fixed_base_msm.h, msm/glv.h. Only definitions.
    The code is a template over the point type; the operations it uses are a record. [None] stands for undefined behaviour (an access outside a
    vector, a shift by at least the width). Scalars are the limbs that ToBigInt() returns. Timing traces and logging are left out.
    The GPU (icicle) back end is not modelled. *)
From Coq Require Import ZArith List Bool.
From Verif Require Import BigIntModel ParallelizeModel SemigroupModel.
Import ListNotations.
Open Scope nat_scope.

(** The operations of Bucket (or AddResult) and Point: Bucket::Zero() (also the default constructor), operator+, operator+= with another bucket
    and with a point, DoubleInPlace, and unary minus of a point; operator-= is AddInPlace(-other), groups.h:194-204. *)
Record bucket_ops {P B : Type} := mk_ops {
  b_zero : B;
  b_add : B -> B -> B;
  b_add_in_place : B -> B -> B;
  b_double_in_place : B -> B;
  b_madd_in_place : B -> P -> B;
  b_neg_point : P -> P
}.
Arguments bucket_ops : clear implicits.

Section MSM.
  Context {P B : Type}.
  Variable ops : bucket_ops P B.
  Notation bzero := (b_zero ops).

  (** ** pippenger_base.h *)
  (** :34-58 AccumulateBuckets(buckets, initial_value) *)
  Definition accumulate_buckets (buckets : list B) (initial_value : B) : B :=
    snd (fold_left (fun st bucket => let running_sum := b_add_in_place ops (fst st) bucket in
                                     (running_sum, b_add_in_place ops (snd st) running_sum))
                   (rev buckets) (bzero, initial_value)).
  (** :69-74: the doublings of one window *)
  Fixpoint double_n (n : nat) (x : B) : B := match n with O => x | S m => double_n m (b_double_in_place ops x) end.
  (** :60-78 AccumulateWindowSums; front() of an empty span is undefined *)
  Definition accumulate_window_sums (window_sums : list B) (window_bits : nat) : option B :=
    match window_sums with
    | [] => None
    | lowest :: rest =>
        Some (b_add ops lowest (fold_left (fun total sum => double_n window_bits (b_add_in_place ops total sum)) (rev rest) bzero))
    end.

  (** ** msm_ctx.h:41-44 ComputeWindowsCount. The choice of window_bits from the size (:27-39, floating point) is a parameter below. *)
  Definition windows_count (modulus_bits window_bits : nat) : nat := Nat.div (modulus_bits + window_bits - 1) window_bits.

  (** ** pippenger.h *)
  (** static_cast<int64_t> of an unsigned 64-bit value *)
  Definition to_i64 (x : Z) : Z := (if x <? 2 ^ 63 then x else x - 2 ^ 64)%Z.
  (** :33-51 the loop of FillDigits: [n] digits are left; returns them with the last carry *)
  Fixpoint fill_digits_loop (scalar : list Z) (window_bits n : nat) (carry : Z) (bit_offset : nat) : option (list Z * Z) :=
    match n with
    | O => Some ([], carry)
    | S n' =>
        match extract_bits 64 scalar bit_offset window_bits with
        | None => None
        | Some bits =>
            let radix := trunc 64 (2 ^ Z.of_nat window_bits) in
            let coeff := trunc 64 (carry + bits) in
            let carry := Z.shiftr (trunc 64 (coeff + radix / 2)) (Z.of_nat window_bits) in
            let digit := (to_i64 coeff - to_i64 (trunc 64 (Z.shiftl carry (Z.of_nat window_bits))))%Z in
            match fill_digits_loop scalar window_bits n' carry (bit_offset + window_bits) with
            | None => None
            | Some (ds, c) => Some (digit :: ds, c)
            end
        end
    end.
  (** :53 digits->back() += carry << window_bits; back() of an empty vector is undefined *)
  Fixpoint add_to_back (ds : list Z) (x : Z) : option (list Z) :=
    match ds with
    | [] => None
    | [d] => Some [(d + x)%Z]
    | d :: r => match add_to_back r x with None => None | Some r' => Some (d :: r') end
    end.
  (** :29-54 FillDigits. uint64_t{1} << window_bits is undefined for 64 and more. *)
  Definition fill_digits (scalar : list Z) (window_bits count : nat) : option (list Z) :=
    if Nat.leb 64 window_bits then None else
    match fill_digits_loop scalar window_bits count 0 0 with
    | None => None
    | Some (ds, carry) => add_to_back ds (to_i64 (trunc 64 (Z.shiftl carry (Z.of_nat window_bits))))
    end.

  (** buckets[k] op= base *)
  Definition update_bucket (buckets : list B) (k : Z) (f : B -> B) : option (list B) :=
    if (k <? 0)%Z then None else
    match nth_error buckets (Z.to_nat k) with None => None | Some x => Some (set_nth (Z.to_nat k) (f x) buckets) end.

  (** :124-134 the loop of AccumulateSingleWindowNAFSum *)
  Fixpoint naf_buckets (bases : list P) (scalar_digits : list (list Z)) (i : nat) (buckets : list B) {struct scalar_digits} : option (list B) :=
    match scalar_digits with
    | [] => Some buckets
    | ds :: sr =>
        match bases, nth_error ds i with
        | base :: br, Some d =>
            match (if (0 <? d)%Z then update_bucket buckets (d - 1) (fun b => b_madd_in_place ops b base)
                   else if (d <? 0)%Z then update_bucket buckets (- d - 1) (fun b => b_madd_in_place ops b (b_neg_point ops base))
                   else Some buckets) with
            | None => None
            | Some buckets' => naf_buckets br sr i buckets'
            end
        | _, _ => None
        end
    end.
  (** :110-136 AccumulateSingleWindowNAFSum *)
  Definition single_window_naf (bases : list P) (scalar_digits : list (list Z)) (window_bits i : nat) (is_last_window : bool) : option B :=
    let bucket_size := if is_last_window then Nat.pow 2 window_bits else Nat.pow 2 (window_bits - 1) in
    match naf_buckets bases scalar_digits i (repeat bzero bucket_size) with
    | None => None
    | Some buckets => Some (accumulate_buckets buckets bzero)
    end.

  (** :182-210 the loop of AccumulateSingleWindowSum; also threads window_sum *)
  Fixpoint plain_buckets (bases : list P) (scalars : list (list Z)) (window_bits window_offset : nat) (st : list B * B) {struct scalars}
    : option (list B * B) :=
    match scalars with
    | [] => Some st
    | scalar :: sr =>
        match bases with
        | [] => None
        | base :: br =>
            match (if bi_is_zero scalar then Some st
                   else if bi_is_one scalar then
                     Some (if Nat.eqb window_offset 0 then (fst st, b_madd_in_place ops (snd st) base) else st)
                   else
                     match nth_error (bi_div_by_2exp scalar (Z.of_nat window_offset)) 0 with
                     | None => None
                     | Some limb =>
                         let idx := (limb mod 2 ^ Z.of_nat window_bits)%Z in
                         if (idx =? 0)%Z then Some st
                         else match update_bucket (fst st) (idx - 1) (fun b => b_madd_in_place ops b base) with
                              | None => None
                              | Some buckets => Some (buckets, snd st)
                              end
                     end) with
            | None => None
            | Some st' => plain_buckets br sr window_bits window_offset st'
            end
        end
    end.
  (** :172-212 AccumulateSingleWindowSum *)
  Definition single_window (bases : list P) (scalars : list (list Z)) (window_bits window_offset : nat) : option B :=
    if Nat.leb 64 window_bits then None else
    match plain_buckets bases scalars window_bits window_offset (repeat bzero (Nat.pow 2 window_bits - 1), bzero) with
    | None => None
    | Some (buckets, window_sum) => Some (accumulate_buckets buckets window_sum)
    end.

  (** :154-168, 220-233 the loops over windows. Each iteration reads only shared constants and writes its own slot; [order] is the order in which
      the iterations of the OpenMP loop write (0, 1, 2, ... in the serial loop). *)
  Fixpoint run_windows (order : list nat) (window : nat -> option B) (window_sums : list B) : option (list B) :=
    match order with
    | [] => Some window_sums
    | i :: r => match window i with None => None | Some x => run_windows r window (set_nth i x window_sums) end
    end.
  Fixpoint fill_all (scalars : list (list Z)) (window_bits count : nat) : option (list (list Z)) :=
    match scalars with
    | [] => Some []
    | s :: r => match fill_digits s window_bits count, fill_all r window_bits count with
                | Some ds, Some dss => Some (ds :: dss)
                | _, _ => None
                end
    end.
  (** :75-107 Run. [naf] is use_msm_window_naf_; Some None is a return value of false. *)
  Definition pippenger_run (naf : bool) (order : list nat) (modulus_bits window_bits : nat) (bases : list P) (scalars : list (list Z))
    : option (option B) :=
    if negb (Nat.eqb (length bases) (length scalars)) then Some None else
    let count := windows_count modulus_bits window_bits in
    let zeros := repeat bzero count in
    match (if naf then
             match fill_all scalars window_bits count with
             | None => None
             | Some digits => run_windows order (fun i => single_window_naf bases digits window_bits i (Nat.eqb i (count - 1))) zeros
             end
           else run_windows order (fun i => single_window bases scalars window_bits (window_bits * i)) zeros) with
    | None => None
    | Some window_sums =>
        match accumulate_window_sums window_sums window_bits with None => None | Some r => Some (Some r) end
    end.

  (** ** pippenger_adapter.h:37-118 RunWithStrategy. [threads] is the number of threads ParallelizeMap splits the work over, [bits] the window size
      the context chooses for a given number of scalars, [orders] the schedules of the window loops, per chunk and number of windows. The thread count a strategy
      selects is [adapter_threads] below. *)
  Inductive strategy := kNone | kParallelWindow | kParallelTerm | kParallelWindowAndTerm.
  Definition adapter_run (s : strategy) (naf : bool) (orders : nat -> nat -> list nat) (threads : Z) (modulus_bits : nat) (bits : nat -> nat)
    (bases : list P) (scalars : list (list Z)) : option (option B) :=
    match s with
    | kNone | kParallelWindow => 
        let window_bits := bits (length scalars) in
        pippenger_run naf (orders O (windows_count modulus_bits window_bits)) modulus_bits window_bits bases scalars
    | kParallelTerm | kParallelWindowAndTerm =>
        if negb (Nat.eqb (length bases) (length scalars)) then Some None
        else match scalars with
        | [] => Some (Some bzero)
        | _ =>
            let chunk := num_elements_per_thread threads (Z.of_nat (length scalars)) None in
            let results := map (fun c => match c with (i, start, len) =>
              let window_bits := bits (Z.to_nat len) in
              pippenger_run naf (orders (Z.to_nat i) (windows_count modulus_bits window_bits)) modulus_bits window_bits
                (slice bases (Z.to_nat start) (Z.to_nat len)) (slice scalars (Z.to_nat start) (Z.to_nat len)) end)
              (chunk_calls (Z.of_nat (length scalars)) chunk) in
            if existsb (fun r => match r with None => true | _ => false end) results then None
            else if forallb (fun r => match r with Some (Some _) => true | _ => false end) results then
              Some (Some (fold_left (fun total r => match r with Some (Some v) => b_add_in_place ops total v | _ => total end) results bzero))
            else Some None
        end
    end.
  (** :72-81, 102-104: the OpenMP thread limit during the call and after it. omp_set_num_threads(omp_get_max_threads()) sets the limit to itself. *)
  Definition adapter_threads (s : strategy) (max_threads window_count : Z) : Z :=
    match s with kParallelWindowAndTerm => Z.max (Z.quot max_threads window_count) 2 | _ => max_threads end.
  Definition adapter_threads_after (s : strategy) (max_threads window_count : Z) : Z :=
    let during := adapter_threads s max_threads window_count in during.

  (** ** fixed_base_msm.h *)
  (** :170-177 CreateVector(window_count, ...): window_base is doubled window_bits times after each copy *)
  Fixpoint window_bases (n window_bits : nat) (window_base : B) : list B :=
    match n with O => [] | S m => window_base :: window_bases m window_bits (double_n window_bits window_base) end.
  (** :205-208 one row; writing outside the row is undefined *)
  Fixpoint fill_row (n j : nat) (base_multiple base : B) (row : list B) : option (list B) :=
    match n with
    | O => Some row
    | S m => if Nat.ltb j (length row) then fill_row m (S j) (b_add_in_place ops base_multiple base) base (set_nth j base_multiple row) else None
    end.
  Fixpoint fill_rows (bases : list B) (i window_count window_size last_window_size : nat) : option (list (list B)) :=
    match bases with
    | [] => Some []
    | wb :: r =>
        let cur_window_size := if Nat.eqb i (window_count - 1) then last_window_size else window_size in
        match fill_row cur_window_size 0 bzero wb (repeat bzero window_size), fill_rows r (S i) window_count window_size last_window_size with
        | Some row, Some rows => Some (row :: rows)
        | _, _ => None
        end
    end.
  (** :151-210 UpdateWindowTable; [base] is already converted to AddResult. The casts to unsigned int do not lose anything for window sizes that
      fit in memory; this is the hypothesis window_bits < 32. *)
  Definition update_window_table (modulus_bits window_bits : nat) (base : B) : option (list (list B)) :=
    let window_count := windows_count modulus_bits window_bits in
    fill_rows (window_bases window_count window_bits base) 0 window_count (Nat.pow 2 window_bits)
              (Nat.pow 2 (modulus_bits - (window_count - 1) * window_bits)).
  (** :55-62 the digit of window [i]: the iterator is only advanced (and read) while bit_index < modulus_bits. [pos] is the iterator's index. *)
  Fixpoint window_digit (scalar : list Z) (modulus_bits window_bits i bit_offset n pos : nat) (j : Z) : Z * nat :=
    match n with
    | O => (j, pos)
    | S m =>
        let bit_index := (i * window_bits + bit_offset)%nat in
        if Nat.ltb bit_index modulus_bits then
          window_digit scalar modulus_bits window_bits i (S bit_offset) m (S pos)
                       (if bi_test_bit scalar pos then Z.lor j (2 ^ Z.of_nat bit_offset) else j)
        else window_digit scalar modulus_bits window_bits i (S bit_offset) m pos j
    end.
  (** :54-64 the loop over windows *)
  Fixpoint fixed_base_loop (scalar : list Z) (modulus_bits window_bits : nat) (rows : list (list B)) (n i pos : nat) (ret : B) : option B :=
    match n with
    | O => Some ret
    | S m =>
        let (j, pos) := window_digit scalar modulus_bits window_bits i 0 window_bits pos 0 in
        match nth_error rows i with
        | None => None
        | Some row => match nth_error row (Z.to_nat j) with
                      | None => None
                      | Some x => fixed_base_loop scalar modulus_bits window_bits rows m (S i) pos (b_add_in_place ops ret x)
                      end
        end
    end.
  (** :36-66 ScalarMul *)
  Definition fixed_base_scalar_mul (modulus_bits window_bits : nat) (rows : list (list B)) (scalar : list Z) : option B :=
    fixed_base_loop scalar modulus_bits window_bits rows (windows_count modulus_bits window_bits) 0 0 bzero.
  (** :68-85 RunSerial and :118-135 Run: the outputs, one per scalar, in some order of the iterations; Some None is false *)
  Definition fixed_base_run (order : list nat) (modulus_bits window_bits : nat) (rows : list (list B)) (scalars : list (list Z)) (outputs : list B)
    : option (option (list B)) :=
    if negb (Nat.eqb (length scalars) (length outputs)) then Some None else
    match run_windows order (fun i => match nth_error scalars i with
                                      | None => None
                                      | Some s => fixed_base_scalar_mul modulus_bits window_bits rows s
                                      end) outputs with
    | None => None
    | Some r => Some (Some r)
    end.
End MSM.

(** ** glv.h *)
Record glv_coeffs := mk_glv { n11 : Z; n12 : Z; n21 : Z; n22 : Z }.
(** :40-80 Decompose: mpz_class division truncates. [r] is the modulus of the scalar field, [k] the scalar as an integer. *)
Definition glv_decompose (c : glv_coeffs) (r k : Z) : Z * Z :=
  let beta_1 := Z.quot (k * n22 c) r in
  let beta_2 := Z.quot (k * - n12 c) r in
  let b0 := (beta_1 * n11 c + beta_2 * n21 c)%Z in
  let b1 := (beta_1 * n12 c + beta_2 * n22 c)%Z in
  ((k - b0)%Z, (- b1)%Z).

(** gmp_util.cc:77-79 GetNumBits: 64 times the number of limbs of a non-negative mpz *)
Definition mpz_num_bits (x : Z) : nat := if (x =? 0)%Z then O else (64 * Z.to_nat (Z.log2 x / 64 + 1))%nat.

Section GLV.
  Context {P B : Type}.
  (** [add_points] is operator+ of two points, with the bucket type as its result. *)
  Variables (ops : bucket_ops P B) (add_points : P -> P -> B) (endomorphism : P -> P) (c : glv_coeffs) (r : Z).

  (** :102-128 the loop of Mul: [n1], [n2] are the iterators' indices plus one, so 0 is the end; the iterator of k2 starts at its own top bit.
      When it runs below 0 its size_t index wraps and mpz_tstbit of a non-negative value reads 0. *)
  Fixpoint glv_loop (k1 k2 : Z) (b1 b2 : P) (b1b2 : B) (n1 n2 : nat) (skip_zeros : bool) (ret : B) : B :=
    match n1 with
    | O => ret
    | S i1 =>
        let bit1 := Z.testbit k1 (Z.of_nat i1) in
        let bit2 := match n2 with O => false | S i2 => Z.testbit k2 (Z.of_nat i2) end in
        let n2' := pred n2 in
        if skip_zeros && negb bit1 && negb bit2 then glv_loop k1 k2 b1 b2 b1b2 i1 n2' false ret
        else
          let ret := b_double_in_place ops ret in
          let ret := if bit1 then if bit2 then b_add_in_place ops ret b1b2 else b_madd_in_place ops ret b1
                     else if bit2 then b_madd_in_place ops ret b2 else ret in
          glv_loop k1 k2 b1 b2 b1b2 i1 n2' false ret
    end.
  (** :82-129 Mul *)
  Definition glv_mul (p : P) (k : Z) : B :=
    let k1k2 := glv_decompose c r k in
    let b1 := if (fst k1k2 <? 0)%Z then b_neg_point ops p else p in
    let b2 := let e := endomorphism p in if (snd k1k2 <? 0)%Z then b_neg_point ops e else e in
    let b1b2 := add_points b1 b2 in
    let k1 := Z.abs (fst k1k2) in
    let k2 := Z.abs (snd k1k2) in
    glv_loop k1 k2 b1 b2 b1b2 (mpz_num_bits k1) (mpz_num_bits k2) true (b_zero ops).
End GLV.

(** ** The configurations: elliptic_curves/bn/bn254/BUILD.bazel:131-141 (G1), :173-183 (G2), elliptic_curves/bls12/bls12_381/BUILD.bazel:132-147
    (G1), :176-184 (G2), with the moduli of the scalar fields (same files, "fr"). *)
Record glv_config := mk_glv_config { glv_rows : glv_coeffs; glv_modulus : Z; glv_lambda : Z }.
Definition bn254_r : Z := 21888242871839275222246405745257275088548364400416034343698204186575808495617.
Definition bls12_381_r : Z := 52435875175126190479447740508185965837690552500527637822603658699938581184513.
Definition bn254_g1_glv : glv_config := mk_glv_config
  (mk_glv (-147946756881789319000765030803803410728) 9931322734385697763 (-9931322734385697763) (-147946756881789319010696353538189108491))
  bn254_r 21888242871839275217838484774961031246154997185409878258781734729429964517155.
Definition bn254_g2_glv : glv_config := mk_glv_config
  (mk_glv (-147946756881789319010696353538189108491) (-9931322734385697763) 9931322734385697763 (-147946756881789319000765030803803410728))
  bn254_r 4407920970296243842393367215006156084916469457145843978461.
Definition bls12_381_g1_glv : glv_config := mk_glv_config
  (mk_glv 228988810152649578064853576960394133504 1 (-1) 228988810152649578064853576960394133503)
  bls12_381_r 52435875175126190479447740508185965837461563690374988244538805122978187051009.
Definition bls12_381_g2_glv : glv_config := mk_glv_config
  (mk_glv (-228988810152649578064853576960394133503) 1 (-1) (-228988810152649578064853576960394133504))
  bls12_381_r 228988810152649578064853576960394133503.
