(** Model of math/polynomials/univariate/{univariate_evaluation_domain,radix2_evaluation_domain,
    radix2_twiddle_cache,evaluations_utils,two_adic_subgroup}.h, of math/matrix/matrix_utils.h
    ReverseMatrixIndexBits and of prime_field_base.h GetRootOfUnity. Only definitions.
    [None] is a CHECK failure, an out-of-bounds access or another undefined operation. Not modelled: the
    CUDA (icicle) branches. *)
From Coq Require Import ZArith List Bool.
From Verif Require Import Field BigIntModel BitsModel ParallelizeModel SemigroupModel PolyModel.
Import ListNotations.
Open Scope fld_scope.

(** An OpenMP parallel-for: the iterations run in an order picked by the scheduler. [sched t] is the
    order picked for the [t]-th such loop of the call; an iteration is one step (its reads and writes touch
    positions that no other iteration of the same loop touches, which the proofs establish). *)
Notation scheduler := (forall A : Type, nat -> list A -> list A).

(** evaluations_utils.h:36-39 (and matrix_utils.h:131-141, where the elements are rows): one iteration. *)
Definition swap_step {A} (log_len : Z) (l : list A) (idx : nat) : option (list A) :=
  match reverse_bits_len (Z.of_nat idx) log_len with
  | None => None
  | Some r =>
      let ridx := Z.to_nat r in
      if Nat.ltb idx ridx then
        match nth_error l idx, nth_error l ridx with
        | Some a, Some b => Some (set_nth ridx a (set_nth idx b l))
        | _, _ => None
        end
      else Some l
  end.
(** evaluations_utils.h:31-41 SwapBitRevElementsInPlace. *)
Definition swap_bitrev (sched : scheduler) (t : nat) {A} (l : list A) (size : nat) (log_len : Z) : option (list A) :=
  if Nat.leb size 1 then Some l else ofold (swap_step log_len) (sched nat t (seq 1 (size - 1))) l.
(** evaluations_utils.h:19-24 SwapBitRevElements. *)
Definition swap_bitrev_elements (sched : scheduler) (t : nat) {A} (l : list A) : option (list A) :=
  match checked_log2 64 (Z.of_nat (length l)) with
  | None => None
  | Some log => swap_bitrev sched t l (length l) log
  end.
(** matrix_utils.h:113-143 ReverseMatrixIndexBits: the elements of the list are the rows. *)
Definition reverse_rows (sched : scheduler) (t : nat) {A} (mat : list A) : option (list A) :=
  match mat with
  | [] => Some mat
  | _ => match checked_log2 64 (Z.of_nat (length mat)) with
         | None => None
         | Some log => ofold (swap_step log) (sched nat t (seq 1 (length mat - 1))) mat
         end
  end.

(** fn(at(lo), at(hi), root): one butterfly on a vector. *)
Definition bfly {A R} (fn : A -> A -> R -> A * A) (l : list A) (op : nat * nat * option R) : option (list A) :=
  match op with
  | (lo, hi, r) =>
      match nth_error l lo, nth_error l hi, r with
      | Some x, Some y, Some w => let p := fn x y w in Some (set_nth hi (snd p) (set_nth lo (fst p) l))
      | _, _, _ => None
      end
  end.

Section Domain.
  Context {K : fld}.
  Notation pow x n := (do_pow (1 : K) fmul (fun y => y * y) [n%Z] x).

  (** prime_field_base.h:114-132 GetRootOfUnity for fields without a large subgroup root: [adicity] is
      kTwoAdicity and [root] kTwoAdicRootOfUnity. n = 0 shifts by 2^32-1: [None]. *)
  Definition get_root_of_unity (adicity : nat) (root : K) (n : Z) : option K :=
    let log := log2_ceiling 64 n in
    if (log <? 0)%Z then None
    else if (n =? 2 ^ log)%Z && (log <=? Z.of_nat adicity)%Z
         then Some (Nat.iter (adicity - Z.to_nat log) (fun x => x * x) root)
         else None.

  (** univariate_evaluation_domain.h:572-589 (the data members). *)
  Record domain := mk_domain {
    d_size : nat; d_log : nat; d_size_elem : K; d_size_inv : K; d_gen : K; d_gen_inv : K;
    d_off : K; d_off_inv : K; d_off_pow : K }.

  (** univariate_evaluation_domain.h:49-69, the constructor: the unwrap() of a failed inversion and the CHECK
      on GetRootOfUnity abort. *)
  Definition new_domain (adicity : nat) (root : K) (size log : nat) : option domain :=
    let m := fnat size in
    if feqb m 0 then None
    else match get_root_of_unity adicity root (Z.of_nat size) with
         | None => None
         | Some g => if feqb g 0 then None
                     else Some (mk_domain size log m (finv m) g (finv g) 1 1 1)
         end.
  (** absl::bit_ceil: the least power of two that is not below its argument. *)
  Definition bit_ceil (n : nat) : nat := Nat.pow 2 (Nat.log2_up n).
  (** radix2_evaluation_domain.h:83-89 Create, without the cache. *)
  Definition create_domain (adicity : nat) (root : K) (num_coeffs : nat) : option domain :=
    new_domain adicity root (bit_ceil num_coeffs) (Z.to_nat (safe_log2_ceiling 64 (Z.of_nat num_coeffs))).
  (** univariate_evaluation_domain.h:102-117 GetCoset. *)
  Definition get_coset (d : domain) (offset : K) : option domain :=
    if feqb offset 0 then None
    else Some (mk_domain (d_size d) (d_log d) (d_size_elem d) (d_size_inv d) (d_gen d) (d_gen_inv d)
                 offset (finv offset) (pow offset (Z.of_nat (d_size d)))).

  (** univariate_evaluation_domain.h:436-447 GetElement, 450-452 GetElements. *)
  Definition get_element (d : domain) (i : Z) : K :=
    let r := if (0 <? i)%Z then pow (d_gen d) i else pow (d_gen_inv d) (- i)%Z in
    if feqb (d_off d) 1 then r else r * d_off d.
  Definition get_elements (threads : Z) (d : domain) : option (list K) :=
    get_successive_powers 1 fmul (fun y => y * y) (fun x => feqb x 1) threads 0 (d_size d) (d_gen d) (d_off d).

  (** univariate_evaluation_domain.h:464-489 DistributePowersAndMulByConst. *)
  Fixpoint mul_powers (g p : K) (l : list K) : list K :=
    match l with [] => [] | x :: r => x * p :: mul_powers g (p * g) r end.
  Definition distribute_powers_and_mul (threads : Z) (l : list K) (g c : K) : option (list K) :=
    parallelize_by_chunk (size_per_thread threads (Z.of_nat (length l)) (Some (1024 * threads)%Z))
      (fun i chunk s => mul_powers g (c * pow g (trunc 64 (i * chunk))) s) l.
  (** univariate_evaluation_domain.h:456-459 DistributePowers. *)
  Definition distribute_powers (threads : Z) (l : list K) (g : K) : option (list K) :=
    distribute_powers_and_mul threads l g 1.

  (** univariate_evaluation_domain.h:518-524 ButterflyFnInOut, 557-566 ButterflyFnOutIn. *)
  Definition butterfly_in_out (lo hi root : K) : K * K := (lo + hi, (lo - hi) * root).
  Definition butterfly_out_in (lo hi root : K) : K * K := let hi := hi * root in (lo + hi, lo - hi).

  (** radix2_twiddle_cache.h:28-37 Item. The packed tables are the broadcasts of [it_roots] (last),
      [it_inv] (first), [it_bitrev] and [it_bitrev_inv], and are not kept separately. [it_packed_only] is
      [None] when the member was left uninitialised. *)
  Record item := mk_item {
    it_roots : list (list K); it_inv : list (list K); it_bitrev : list K; it_bitrev_inv : list K;
    it_packed_only : option bool }.

  (** radix2_twiddle_cache.h:112-120: the table of [count] entries taken from [largest] with step 2^i. *)
  Definition strided (largest : list K) (i count : nat) : option (list K) :=
    all_some (map (fun j => nth_error largest (Nat.pow 2 i * j)) (seq 0 count)).
  (** radix2_twiddle_cache.h:58-121, the constructor. [small] is kModulusBits <= 32. *)
  Definition build_item (small : bool) (threads : Z) (sched : scheduler) (d : domain) (packed_only : bool) : option item :=
    if Nat.eqb (d_log d) 0 then Some (mk_item [] [] [] [] None)
    else
      let half := Nat.div (d_size d) 2 in
      let powers g := get_successive_powers 1 fmul (fun y => y * y) (fun x => feqb x 1) threads 0 half g 1 in
      match powers (d_gen d), powers (d_gen_inv d) with
      | Some largest, Some largest_inv =>
          match (if small then swap_bitrev_elements sched 0 largest else Some []),
                (if small then swap_bitrev_elements sched 1 largest_inv else Some []) with
          | Some br, Some br_inv =>
              if packed_only then
                Some (mk_item (repeat [] (d_log d - 1) ++ [largest]) (largest_inv :: repeat [] (d_log d - 1)) br br_inv (Some true))
              else
                let sub l i := strided l i (Nat.div (d_size d) (Nat.pow 2 i * 2)) in
                match all_some (map (fun i => sub largest i) (rev (seq 1 (d_log d - 1)))),
                      all_some (map (fun i => sub largest_inv i) (seq 1 (d_log d - 1))) with
                | Some rs, Some is => Some (mk_item (rs ++ [largest]) (largest_inv :: is) br br_inv (Some false))
                | _, _ => None
                end
          | _, _ => None
          end
      | _, _ => None
      end.

  (** radix2_evaluation_domain.h:289-312 ApplyButterfly: the iterations (i, j). *)
  Definition layer_ops (n : nat) (roots : list K) (gap : nat) : list (nat * nat * option K) :=
    flat_map (fun b => map (fun j => (b * (2 * gap) + j, b * (2 * gap) + j + gap, nth_error roots j)%nat) (seq 0 gap))
             (seq 0 (Nat.div (n + 2 * gap - 1) (2 * gap))).
  Definition apply_butterfly (sched : scheduler) (t : nat) (fn : K -> K -> K -> K * K) (l : list K) (roots : list K) (gap : nat)
    : option (list K) := ofold (bfly fn) (sched _ t (layer_ops (length l) roots gap)) l.

  (** radix2_evaluation_domain.h:324-333 OutInHelper. [gap] doubles, so 64 rounds exhaust size_t. *)
  Fixpoint out_in_loop (sched : scheduler) (tables : list (list K)) (fuel gap idx : nat) (l : list K) : option (list K) :=
    match fuel with
    | O => None
    | S f =>
        if Nat.ltb gap (length l) then
          match nth_error tables idx with
          | None => None
          | Some roots => match apply_butterfly sched (S idx) butterfly_out_in l roots gap with
                          | None => None
                          | Some l' => out_in_loop sched tables f (gap * 2) (S idx) l'
                          end
          end
        else Some l
    end.
  Definition out_in_helper (sched : scheduler) (it : item) (l : list K) (start_gap : nat) : option (list K) :=
    out_in_loop sched (it_roots it) 64 start_gap (Z.to_nat (safe_log2_ceiling 64 (Z.of_nat start_gap))) l.
  (** radix2_evaluation_domain.h:314-322 InOutHelper. *)
  Fixpoint in_out_loop (sched : scheduler) (tables : list (list K)) (fuel gap idx : nat) (l : list K) : option (list K) :=
    match fuel with
    | O => None
    | S f =>
        if Nat.ltb 0 gap then
          match nth_error tables idx with
          | None => None
          | Some roots => match apply_butterfly sched (S idx) butterfly_in_out l roots gap with
                          | None => None
                          | Some l' => in_out_loop sched tables f (Nat.div gap 2) (S idx) l'
                          end
          end
        else Some l
    end.
  Definition in_out_helper (sched : scheduler) (it : item) (l : list K) : option (list K) :=
    in_out_loop sched (it_inv it) 64 (Nat.div (length l) 2) 0 l.

  (** radix2_evaluation_domain.h:251-256: the callback that repeats chunk[0] over the chunk. *)
  Definition fill_first (s : list K) : list K := match s with [] => [] | v :: _ => repeat v (length s) end.

  (** radix2_evaluation_domain.h:213-261 DoFFT, DegreeAwareFFTInPlace. *)
  Definition do_fft (threads : Z) (sched : scheduler) (d : domain) (it : item) (coeffs : list K) : option (list K) :=
    match (if feqb (d_off d) 1 then Some coeffs else distribute_powers threads coeffs (d_off d)) with
    | None => None
    | Some evals =>
        let num_coeffs := length evals in
        let log_d := Z.to_nat (safe_log2_ceiling 64 (Z.of_nat num_coeffs)) in
        if Nat.ltb (d_log d) log_d then None
        else
          let duplicity := Nat.pow 2 (d_log d - log_d) in
          match swap_bitrev sched 0 (vec_resize 0 evals (d_size d)) num_coeffs (Z.of_nat (d_log d)) with
          | None => None
          | Some swapped =>
              if Nat.leb 4 duplicity then
                match parallelize_by_chunk (Z.of_nat duplicity) (fun _ _ s => fill_first s) swapped with
                | None => None
                | Some filled => out_in_helper sched it filled duplicity
                end
              else out_in_helper sched it swapped 1
          end
    end.
  (** univariate_evaluation_domain.h:141-182 FFT (both overloads). *)
  Definition fft (threads : Z) (sched : scheduler) (d : domain) (it : item) (poly : list K) : option (list K) :=
    if is_zero poly then Some [] else do_fft threads sched d it poly.

  (** radix2_evaluation_domain.h:218-287 DoIFFT, InOrderIFFTInPlace, IFFTHelperInPlace. *)
  Definition do_ifft (threads : Z) (sched : scheduler) (d : domain) (it : item) (evals : list K) : option (list K) :=
    match in_out_helper sched it (vec_resize 0 evals (d_size d)) with
    | None => None
    | Some l =>
        match swap_bitrev sched 0 l (length l) (Z.of_nat (d_log d)) with
        | None => None
        | Some l =>
            match (if feqb (d_off d) 1 then Some (map (fun x => x * d_size_inv d) l)
                   else distribute_powers_and_mul threads l (d_off_inv d) (d_size_inv d)) with
            | None => None
            | Some l => Some (remove_high l)
            end
        end
    end.
  (** univariate_evaluation_domain.h:187-232 IFFT (both overloads). *)
  Definition ifft (threads : Z) (sched : scheduler) (d : domain) (it : item) (evals : list K) : option (list K) :=
    match evals with [] => Some [] | _ => do_ifft threads sched d it evals end.

  (** radix2_twiddle_cache.h:124-139 GetItem. [items] is the process-wide map, newest entry first, keyed by size
      and generator. absl::flat_hash_map::insert(hint, value) leaves an existing entry with that key in place
      and returns it. [junk] is what reading an uninitialised packed_vec_only yields. *)
  Definition cache := list (nat * K * item).
  Definition key_eqb (a b : nat * K) : bool := Nat.eqb (fst a) (fst b) && feqb (snd a) (snd b).
  Fixpoint cache_find (items : cache) (k : nat * K) : option item :=
    match items with
    | [] => None
    | (k', it) :: r => if key_eqb k' k then Some it else cache_find r k
    end.
  Definition cache_insert (items : cache) (k : nat * K) (it : item) : cache * item :=
    match cache_find items k with
    | Some old => (items, old)
    | None => ((k, it) :: items, it)
    end.
  Definition get_item (small : bool) (threads : Z) (sched : scheduler) (junk : bool) (items : cache) (d : domain) (packed_only : bool)
    : option (cache * item) :=
    let k := (d_size d, d_gen d) in
    let fresh := match build_item small threads sched d packed_only with
                 | None => None
                 | Some it => Some (cache_insert items k it)
                 end in
    match cache_find items k with
    | None => fresh
    | Some it =>
        let p := match it_packed_only it with Some b => b | None => junk end in
        if p && negb packed_only then fresh else Some (items, it)
    end.
End Domain.
Arguments domain : clear implicits. Arguments item : clear implicits. Arguments cache : clear implicits.

(** The batch transforms work on the rows of a row-major matrix: [V] is a row, [bf] the out-in butterfly of two
    rows with a twiddle (radix2_evaluation_domain.h:427-452 ApplyButterflyToRows: packed lanes, then the
    rest, all elementwise), [scale] the product of a row with a field element and [vzero] the zero row. *)
Section Batch.
  Context {K : fld} {V : Type}.
  Variables (bf : V -> V -> K -> V * V) (scale : V -> K -> V) (vzero : V).
  Notation pow x n := (do_pow (1 : K) fmul (fun y => y * y) [n%Z] x).

  (** radix2_evaluation_domain.h:398-425 RunDitLayers. *)
  Definition dit_ops (log_n rows layer : nat) (twiddles : list K) (rev : bool) : list (nat * nat * option K) :=
    let layer_rev := (log_n - 1 - layer)%nat in
    let half := Nat.pow 2 (if rev then layer_rev else layer) in
    let block := (half * 2)%nat in
    flat_map (fun b => map (fun i => (b * block + i, b * block + i + half,
                                      nth_error twiddles (if rev then b else i * Nat.pow 2 layer_rev))%nat) (seq 0 half))
             (seq 0 (Nat.div (rows + block - 1) block)).
  Definition run_dit_layer (log_n layer : nat) (twiddles : list K) (rev : bool) (sub : list V) : option (list V) :=
    ofold (bfly bf) (dit_ops log_n (length sub) layer twiddles rev) sub.
  (** mat.block(start, 0, len, cols): running a step on some consecutive rows. *)
  Definition on_rows (start len : nat) (f : list V -> option (list V)) (mat : list V) : option (list V) :=
    if Nat.leb (start + len) (length mat) then
      match f (slice mat start len) with
      | None => None
      | Some s => Some (firstn start mat ++ s ++ skipn (start + len) mat)
      end
    else None.
  (** The row blocks an OpenMP loop "for start = 0; start < size; start += chunk" visits. *)
  Definition row_blocks (size chunk : nat) : list nat := seq 0 (Nat.div (size + chunk - 1) chunk).
  (** radix2_evaluation_domain.h:336-360 RunParallelRowChunks. *)
  Definition run_row_chunks (sched : scheduler) (t : nat) (d : domain K) (twiddles : list K) (mat : list V) : option (list V) :=
    if is_power_of_two (Z.of_nat (length mat)) then
      let mid := Nat.div (d_log d) 2 in
      let chunk := Nat.pow 2 mid in
      ofold (fun m b => on_rows (b * chunk) (Nat.min chunk (d_size d - b * chunk))
                          (ofold (fun s layer => run_dit_layer (d_log d) layer twiddles false s) (seq 0 mid)) m)
            (sched _ t (row_blocks (d_size d) chunk)) mat
    else None.
  (** radix2_evaluation_domain.h:363-395 RunParallelRowChunksReversed; subspan(first_block) needs
      first_block <= size. *)
  Definition run_row_chunks_reversed (sched : scheduler) (t : nat) (d : domain K) (twiddles_rev : list K) (mat : list V) : option (list V) :=
    if is_power_of_two (Z.of_nat (length mat)) then
      let mid := Nat.div (d_log d) 2 in
      let chunk := Nat.pow 2 (d_log d - mid) in
      ofold (fun m b => on_rows (b * chunk) (Nat.min chunk (d_size d - b * chunk))
                          (ofold (fun s layer =>
                                    let first_block := (b * Nat.pow 2 (layer - mid))%nat in
                                    if Nat.leb first_block (length twiddles_rev)
                                    then run_dit_layer (d_log d) layer (skipn first_block twiddles_rev) true s
                                    else None) (seq mid (d_log d - mid))) m)
            (sched _ t (row_blocks (d_size d) chunk)) mat
    else None.

  (** radix2_evaluation_domain.h:99-119 FFTBatch. *)
  Definition fft_batch (sched : scheduler) (d : domain K) (it : item K) (mat : list V) : option (list V) :=
    if Nat.ltb 0 (length (it_roots it)) && Nat.eqb (d_size d) (length mat) then
      match reverse_rows sched 0 mat with None => None | Some mat =>
      match run_row_chunks sched 1 d (last (it_roots it) []) mat with None => None | Some mat =>
      match reverse_rows sched 2 mat with None => None | Some mat =>
      match run_row_chunks_reversed sched 3 d (it_bitrev it) mat with None => None | Some mat =>
      reverse_rows sched 4 mat end end end end
    else None.

  (** two_adic_subgroup.h:36-44: scaling, then the iteration that scales and swaps rows [row] and [rows - row]. *)
  Definition scale_row (inv : K) (mat : list V) (row : nat) : option (list V) :=
    match nth_error mat row with None => None | Some x => Some (set_nth row (scale x inv) mat) end.
  Definition scale_swap (inv : K) (mat : list V) (row : nat) : option (list V) :=
    let row2 := (length mat - row)%nat in
    match nth_error mat row, nth_error mat row2 with
    | Some x, Some y => Some (set_nth row2 (scale x inv) (set_nth row (scale y inv) mat))
    | _, _ => None
    end.
  (** two_adic_subgroup.h:26-45 IFFTBatch on top of a forward transform. *)
  Definition ifft_batch (sched : scheduler) (d : domain K) (it : item K) (mat : list V) : option (list V) :=
    match fft_batch sched d it mat with
    | None => None
    | Some mat =>
        let m := fnat (length mat) in
        if feqb m 0 then None
        else
          let inv := finv m in
          match scale_row inv mat 0 with None => None | Some mat =>
          match scale_row inv mat (Nat.div (length mat) 2) with None => None | Some mat =>
          ofold (scale_swap inv) (sched _ 5%nat (seq 1 (Nat.div (length mat) 2 - 1))) mat end end
    end.

  (** radix2_evaluation_domain.h:158-170: the rescaling callback on rows start .. start+len-1 (in bit-reversed
      order), for one chunk. *)
  Fixpoint rescale_loop (log : Z) (shift weight : K) (row todo : nat) (mat : list V) : option (list V) :=
    match todo with
    | O => Some mat
    | S n =>
        match reverse_bits_len (Z.of_nat row) log with
        | None => None
        | Some r =>
            match scale_row weight mat (Z.to_nat r) with
            | None => None
            | Some mat => rescale_loop log shift (weight * shift) (S row) n mat
            end
        end
    end.
  Definition rescale (threads : Z) (sched : scheduler) (t : nat) (d : domain K) (shift : K) (mat : list V) : option (list V) :=
    ofold (fun m call => match call with
             (_, start, len) =>
               rescale_loop (Z.of_nat (d_log d)) shift (d_size_inv d * pow shift start) (Z.to_nat start) (Z.to_nat len) m
           end)
          (sched _ t (chunk_calls (Z.of_nat (d_size d)) (size_per_thread threads (Z.of_nat (d_size d)) None))) mat.
  (** radix2_evaluation_domain.h:459-480 ExpandWithZeroPad. *)
  Definition expand_with_zero_pad (mat : list V) (added_bits : nat) : option (list V) :=
    all_some (map (fun row => if Nat.eqb (Nat.modulo row (Nat.pow 2 added_bits)) 0
                              then nth_error mat (Nat.div row (Nat.pow 2 added_bits)) else Some vzero)
                  (seq 0 (length mat * Nat.pow 2 added_bits))).
  (** radix2_evaluation_domain.h:129-201 CosetLDEBatch (rvalue overload). [out_rows] is the number of rows of
      the caller's output matrix (its content is overwritten). When added_bits = 0 the assignment out = mat
      resizes it. *)
  Definition coset_lde_batch (small : bool) (threads : Z) (sched : scheduler) (adicity : nat) (root : K)
    (d : domain K) (it : item K) (mat : list V) (added_bits : nat) (shift : K) (out_rows : nat) (reverse_at_last : bool)
    : option (list V) :=
    if Nat.ltb 0 (length (it_roots it)) && Nat.eqb (d_size d) (length mat) then
      match reverse_rows sched 0 mat with None => None | Some mat =>
      match run_row_chunks sched 1 d (hd [] (it_inv it)) mat with None => None | Some mat =>
      match reverse_rows sched 2 mat with None => None | Some mat =>
      match run_row_chunks_reversed sched 3 d (it_bitrev_inv it) mat with None => None | Some mat =>
      match rescale threads sched 4 d shift mat with None => None | Some mat =>
      match (if Nat.eqb added_bits 0 then Some mat
             else if Nat.eqb out_rows (length mat * Nat.pow 2 added_bits) then expand_with_zero_pad mat added_bits else None) with
      None => None | Some out =>
      match checked_log2 64 (Z.of_nat (length out)) with None => None | Some log =>
      match new_domain adicity root (length out) (Z.to_nat log) with None => None | Some d2 =>
      match build_item small threads sched d2 true with None => None | Some it2 =>
      match run_row_chunks sched 5 d2 (last (it_roots it2) []) out with None => None | Some out =>
      match reverse_rows sched 6 out with None => None | Some out =>
      match run_row_chunks_reversed sched 7 d2 (it_bitrev it2) out with None => None | Some out =>
      if reverse_at_last then reverse_rows sched 8 out else Some out
      end end end end end end end end end end end end
    else None.
  (** radix2_evaluation_domain.h:121-127 CosetLDEBatch (const reference overload): [reverse_at_last] is accepted
      and not passed on, so the default (true) is used. *)
  Definition coset_lde_batch_const (small : bool) (threads : Z) (sched : scheduler) (adicity : nat) (root : K)
    (d : domain K) (it : item K) (mat : list V) (added_bits : nat) (shift : K) (out_rows : nat) (reverse_at_last : bool)
    : option (list V) :=
    coset_lde_batch small threads sched adicity root d it mat added_bits shift out_rows true.
End Batch.

(** A matrix with [cols] columns: the rows are lists, the butterfly and the scaling are elementwise. *)
Definition row_bf {K : fld} (x y : list K) (w : K) : list K * list K :=
  (map (fun p => fst (butterfly_out_in (fst p) (snd p) w)) (combine x y),
   map (fun p => snd (butterfly_out_in (fst p) (snd p) w)) (combine x y)).
Definition row_scale {K : fld} (x : list K) (c : K) : list K := map (fun a => a * c) x.
