(** Model of crypto/hashes/sponge/poseidon (the configuration built by Create and the permutation) and of
    crypto/hashes/sponge/poseidon2. Only definitions. A vector or matrix of Eigen is the function giving its entries,
    and the sizes are passed beside it; entries outside the sizes are never read. [None] is a failing CHECK, unwrap of
    nothing or a width the code refuses. Eigen's inverse() is the parameter [inv]. *)
From Coq Require Import ZArith List Bool Arith.
From Verif Require Import Field BigIntModel SemigroupModel SmallFieldModel PolyModel.
Import ListNotations.
Open Scope fld_scope.

Section Poseidon.
  Context {K : fld}.
  Definition pvec := nat -> K.
  Definition pmat := nat -> nat -> K.

  (** math/matrix/matrix_operations.h:56-69 MulMatVecSerial, square matrix of size [n]. *)
  Definition mul_mat_vec (n : nat) (m : pmat) (v : pvec) : pvec :=
    fun i => fold_left (fun acc j => acc + m i j * v j) (seq 0 n) 0.
  (** operator* of Eigen on square matrices of size [n], transpose() and Identity(). *)
  Definition mat_mul (n : nat) (a b : pmat) : pmat :=
    fun i j => fold_left (fun acc k => acc + a i k * b k j) (seq 0 n) 0.
  Definition mat_transpose (a : pmat) : pmat := fun i j => a j i.
  Definition mat_id : pmat := fun i j => if Nat.eqb i j then 1 else 0.
  (** block(1, 1, rows - 1, cols - 1). *)
  Definition block11 (a : pmat) : pmat := fun i j => a (S i) (S j).

  (** ** poseidon/sparse_mds_matrix.h *)
  Record sparse := { sp_row : pvec; sp_col_hat : pvec }.
  (** :47-56 FromMDSMatrix. *)
  Definition from_mds_matrix (n : nat) (m : pmat) : option sparse :=
    if Nat.ltb 1 n
       && forallb (fun i => forallb (fun j => feqb (block11 m i j) (mat_id i j)) (seq 0 (n - 1))) (seq 0 (n - 1))
    then Some {| sp_row := fun j => m 0%nat j; sp_col_hat := fun i => m (S i) 0%nat |}
    else None.
  (** :68-79 Apply. *)
  Definition sparse_apply (n : nat) (s : sparse) (v : pvec) : pvec :=
    let v0 := fold_left (fun acc i => acc + sp_row s i * v i) (seq 0 n) 0 in
    fun i => match i with O => v0 | S i' => v i + sp_col_hat s i' * v 0%nat end.
  (** :81-86 Construct. *)
  Definition sparse_construct (s : sparse) : pmat :=
    fun i j => match i with
               | O => sp_row s j
               | S i' => match j with O => sp_col_hat s i' | S _ => mat_id i j end
               end.

  (** ** poseidon/poseidon_config.h *)
  (** :59-67 the MDS matrix of FindPoseidonARKAndMDS from the two sampled vectors. *)
  Definition cauchy_mds (n : nat) (xs ys : pvec) : option pmat :=
    if forallb (fun i => forallb (fun j => negb (feqb (xs i + ys j) 0)) (seq 0 n)) (seq 0 n)
    then Some (fun i j => finv (xs i + ys j)) else None.

  (** the rows of a matrix as a function; [set_row i r a] is a.row(i) = r. *)
  Definition set_row (i : nat) (r : pvec) (a : pmat) : pmat := fun k => if Nat.eqb k i then r else a k.

  (** :154-159: the body of the loop over the partial rounds; [i] is the loop variable. *)
  Definition ark_partial (n rf rp : nat) (minv ark : pmat) (st : pvec * pmat) (i : nat) : pvec * pmat :=
    let (acc, opt) := st in
    let tmp := mul_mat_vec n minv acc in
    let opt := set_row (rf + rp - i) (fun k => if Nat.eqb k 0 then tmp 0%nat else 0) opt in
    let tmp := fun k => if Nat.eqb k 0 then 0 else tmp k in
    ((fun k => tmp k + ark (rf + rp - i - 1)%nat k), opt).
  (** :141-168 OptimizeARK; [minv] is mds.inverse() and [junk] the content of the unset matrix. *)
  Definition optimize_ark (n rf rp : nat) (minv ark junk : pmat) : pmat :=
    let opt := set_row 0 (ark 0%nat) junk in
    let h := Nat.div rf 2 in
    let opt := fold_left (fun opt i => set_row i (mul_mat_vec n minv (ark i)) opt) (seq 1 (h - 1)) opt in
    let (acc, opt) := fold_left (ark_partial n rf rp minv ark) (seq h rp) (ark (h + rp)%nat, opt) in
    let opt := set_row h (mul_mat_vec n minv acc) opt in
    fold_left (fun opt i => set_row i (mul_mat_vec n minv (ark i)) opt)
      (seq (h + rp + 1) (rp + rf - (h + rp + 1))) opt.

  (** :193-212 Factorize; the results are m_prime and m_prime_prime. *)
  Definition factorize (inv : nat -> pmat -> pmat) (n : nat) (mds : pmat) : option (pmat * sparse) :=
    let m_hat := block11 mds in
    let m_prime : pmat := fun i j => match i, j with S i', S j' => m_hat i' j' | _, _ => mat_id i j end in
    let w_hat := mul_mat_vec (n - 1) (inv (n - 1)%nat m_hat) (fun i => mds (S i) 0%nat) in
    let m_pp : pmat := fun i j => match i, j with
                                  | O, _ => mds 0%nat j
                                  | S i', O => w_hat i'
                                  | S _, S _ => mat_id i j
                                  end in
    match from_mds_matrix n (mat_transpose m_pp) with
    | None => None
    | Some s => Some (m_prime, s)
    end.
  (** :176-183: CreateVector runs the body [k] times from [acc]; the result is the vector and the last acc. *)
  Fixpoint sparse_loop (inv : nat -> pmat -> pmat) (n : nat) (mt : pmat) (k : nat) (acc : pmat) : option (list sparse * pmat) :=
    match k with
    | O => Some ([], acc)
    | S k =>
        match factorize inv n acc with
        | None => None
        | Some (m', s) =>
            match sparse_loop inv n mt k (mat_mul n mt m') with
            | None => None
            | Some (l, acc) => Some (s :: l, acc)
            end
        end
    end.
  Record pconfig := { pc_ark : pmat; pc_mds : pmat; pc_pre_sparse : pmat; pc_sparse : list sparse }.
  (** :171-186 ComputeSparseMatrices. *)
  Definition compute_sparse (inv : nat -> pmat -> pmat) (n rp : nat) (mds : pmat) : option (pmat * list sparse) :=
    let mt := mat_transpose mds in
    match sparse_loop inv n mt rp mt with
    | None => None
    | Some (l, acc) => Some (mat_transpose acc, rev l)
    end.
  (** :98-109 Create, from the sampled ark and mds on. *)
  Definition create_config (inv : nat -> pmat -> pmat) (n rf rp : nat) (ark mds junk : pmat) : option pconfig :=
    let ark := optimize_ark n rf rp (inv n mds) ark junk in
    match compute_sparse inv n rp mds with
    | None => None
    | Some (pre, l) => Some {| pc_ark := ark; pc_mds := mds; pc_pre_sparse := pre; pc_sparse := l |}
    end.

  (** ** poseidon/poseidon_sponge_base.h *)
  (** :148-153 ApplyARKFull, 155-160 ApplyARKPartial, 162-167 ApplySBoxFull, 169-173 ApplySBoxPartial. *)
  Definition ark_full (ark : pmat) (r : nat) (v : pvec) : pvec := fun i => v i + ark r i.
  Definition ark_part (ark : pmat) (r : nat) (v : pvec) : pvec := fun i => if Nat.eqb i 0 then v i + ark r 0%nat else v i.
  Definition sbox (alpha : Z) (x : K) : K := const_pow 1 fmul (fun x => x * x) alpha x.
  Definition sbox_full (alpha : Z) (v : pvec) : pvec := fun i => sbox alpha (v i).
  Definition sbox_part (alpha : Z) (v : pvec) : pvec := fun i => if Nat.eqb i 0 then sbox alpha (v i) else v i.

  (** ** poseidon/poseidon.h *)
  (** :55-57, 72-74: a full round of the optimised schedule. *)
  Definition opt_full (n : nat) (alpha : Z) (c : pconfig) (v : pvec) (i : nat) : pvec :=
    mul_mat_vec n (pc_mds c) (ark_full (pc_ark c) i (sbox_full alpha v)).
  (** :65-67: a partial round; [h] is full_rounds_over_2. The index is outside the vector of matrices: [None]. *)
  Definition opt_part (n : nat) (alpha : Z) (c : pconfig) (h : nat) (v : pvec) (i : nat) : option pvec :=
    match nth_error (pc_sparse c) (i - (h + 1)) with
    | None => None
    | Some s => Some (sparse_apply n s (ark_part (pc_ark c) i (sbox_part alpha v)))
    end.
  (** :50-78 Permute. *)
  Definition permute (n rf rp : nat) (alpha : Z) (c : pconfig) (v : pvec) : option pvec :=
    let v := ark_full (pc_ark c) 0 v in
    let h := Nat.div rf 2 in
    let v := fold_left (opt_full n alpha c) (seq 1 (h - 1)) v in
    let v := sbox_full alpha v in
    let v := ark_full (pc_ark c) h v in
    let v := mul_mat_vec n (pc_pre_sparse c) v in
    match ofold (opt_part n alpha c h) (seq (h + 1) rp) v with
    | None => None
    | Some v =>
        let v := fold_left (opt_full n alpha c) (seq (h + rp + 1) (rp + rf - (h + rp + 1))) v in
        Some (mul_mat_vec n (pc_mds c) (sbox_full alpha v))
    end.

  (** ** poseidon2 *)
  (** poseidon2_horizen_external_matrix.h:18-27 and poseidon2_plonky3_external_matrix.h:18-28 DoApply; the argument is
      the four entries, the assignments are in the order of the code. *)
  Definition do_apply_horizen (v : pvec) : pvec :=
    let t0 := v 0%nat + v 1%nat in
    let t1 := v 2%nat + v 3%nat in
    let t2 := v 1%nat + v 1%nat + t1 in
    let t3 := v 3%nat + v 3%nat + t0 in
    let dbl (x : K) := x + x in
    let v3 := dbl (dbl t1) + t3 in
    let v1 := dbl (dbl t0) + t2 in
    let v0 := t3 + v1 in
    let v2 := t2 + v3 in
    fun i => match i with 0%nat => v0 | 1%nat => v1 | 2%nat => v2 | 3%nat => v3 | _ => v i end.
  Definition do_apply_plonky3 (v : pvec) : pvec :=
    let t0 := v 0%nat + v 1%nat in
    let t1 := v 2%nat + v 3%nat in
    let t2 := t0 + t1 in
    let t3 := t2 + v 1%nat in
    let t4 := t2 + v 3%nat in
    let v3 := t4 + (v 0%nat + v 0%nat) in
    let v1 := t3 + (v 2%nat + v 2%nat) in
    let v0 := t3 + t0 in
    let v2 := t4 + t1 in
    fun i => match i with 0%nat => v0 | 1%nat => v1 | 2%nat => v2 | 3%nat => v3 | _ => v i end.
  (** the numerals F(n) of DoConstruct. *)
  Definition rows4 (l : list (list nat)) : pmat := fun i j => fnat (nth j (nth i l []) 0%nat).
  (** poseidon2_horizen_external_matrix.h:29-36, poseidon2_plonky3_external_matrix.h:30-37 DoConstruct. *)
  Definition do_construct_horizen : pmat := rows4 [[5; 7; 1; 3]; [4; 6; 1; 1]; [1; 3; 5; 7]; [1; 1; 4; 6]]%nat.
  Definition do_construct_plonky3 : pmat := rows4 [[2; 3; 1; 1]; [1; 2; 3; 1]; [1; 1; 2; 3]; [3; 1; 1; 2]]%nat.
  (** math/matrix/matrix_utils.h:37-42, 50-57 MakeCirculant: the entry is vec(row - col), wrapped once. *)
  Definition circulant (n : nat) (c : pvec) : pmat :=
    fun i j => if Nat.ltb i j then c (i + n - j)%nat else c (i - j)%nat.

  Inductive vendor := Horizen | Plonky3.
  Definition do_apply (d : vendor) := match d with Horizen => do_apply_horizen | Plonky3 => do_apply_plonky3 end.
  Definition do_construct (d : vendor) := match d with Horizen => do_construct_horizen | Plonky3 => do_construct_plonky3 end.
  (** poseidon2_external_matrix.h:37-38: DoApply on the block of four entries from [o] on. *)
  Definition apply_block (d : vendor) (v : pvec) (o : nat) : pvec :=
    let b := do_apply d (fun i => v (o + i)%nat) in
    fun k => if Nat.leb o k && Nat.ltb k (o + 4) then b (k - o)%nat else v k.
  (** the values of "for (i = 0; i < w; i += 4)" for a multiple of four. *)
  Definition by_four (w : nat) : list nat := map (fun i => (4 * i)%nat) (seq 0 (Nat.div w 4)).
  (** poseidon2_external_matrix.h:20-55 Apply<kWidth>. *)
  Definition external_apply (d : vendor) (w : nat) (v : pvec) : option pvec :=
    if Nat.leb w 1 || Nat.ltb 24 w then None
    else if Nat.eqb w 2 then
      let sum := v 0%nat + v 1%nat in
      Some (fun i => match i with 0%nat => v 0%nat + sum | 1%nat => v 1%nat + sum | _ => v i end)
    else if Nat.eqb w 3 then
      let sum := v 0%nat + v 1%nat + v 2%nat in
      Some (fun i => match i with 0%nat => v 0%nat + sum | 1%nat => v 1%nat + sum | 2%nat => v 2%nat + sum | _ => v i end)
    else if Nat.eqb w 4 then Some (do_apply d v)
    else if Nat.eqb (Nat.modulo w 4) 0 then
      let v := fold_left (apply_block d) (by_four w) v in
      let tmp := fun i => fold_left (fun acc j => acc + v (i + j)%nat) (by_four w) 0 in
      Some (fun i => if Nat.ltb i w then v i + tmp (Nat.modulo i 4) else v i)
    else None.
  (** poseidon2_external_matrix.h:57-82 Construct<kWidth>. *)
  Definition external_construct (d : vendor) (w : nat) : option pmat :=
    if Nat.leb w 1 || Nat.ltb 24 w then None
    else if Nat.eqb w 2 then Some (circulant 2 (fun i => fnat (nth i [2; 1] 0)%nat))
    else if Nat.eqb w 3 then Some (circulant 3 (fun i => fnat (nth i [2; 1; 1] 0)%nat))
    else if Nat.eqb w 4 then Some (do_construct d)
    else if Nat.eqb (Nat.modulo w 4) 0 then
      let small := do_construct d in
      Some (fun i j => let e := small (Nat.modulo i 4) (Nat.modulo j 4) in
                       if Nat.eqb (Nat.div i 4) (Nat.div j 4) then fnat 2 * e else e)
    else None.
  (** poseidon2_horizen_internal_matrix.h:18-38 Apply, [w] entries. *)
  Definition internal_apply (w : nat) (d v : pvec) : pvec :=
    let sum := fold_left (fun acc i => acc + v i) (seq 0 w) 0 in
    fun i => v i * d i + sum.
  (** poseidon2_plonky3_internal_matrix.h:24-35: Apply on packed fields; [raw] is RawOne(), used if kUseMontgomery. *)
  Definition internal_apply_packed (raw : option K) (w : nat) (d v : pvec) : pvec :=
    let v := internal_apply w d v in
    match raw with None => v | Some r => fun i => v i * r end.
  (** poseidon2_config.h:134-140: the diagonal built from the shifts for packed fields. *)
  Definition diagonal_of_shifts (pow2 : Z -> K) (minus_two : K) (shifts : list Z) : pvec :=
    fun i => match i with O => minus_two | S i => pow2 (nth i shifts 0%Z) end.

  (** poseidon2/poseidon2.h:49-70 Permute; [internal] is ApplyMixPartial. *)
  Definition full2 (d : vendor) (w : nat) (alpha : Z) (ark : pmat) (v : pvec) (i : nat) : option pvec :=
    external_apply d w (sbox_full alpha (ark_full ark i v)).
  Definition part2 (internal : pvec -> pvec) (alpha : Z) (ark : pmat) (v : pvec) (i : nat) : option pvec :=
    Some (internal (sbox_part alpha (ark_part ark i v))).
  Definition permute2 (d : vendor) (internal : pvec -> pvec) (w rf rp : nat) (alpha : Z) (ark : pmat) (v : pvec) : option pvec :=
    let h := Nat.div rf 2 in
    match external_apply d w v with
    | None => None
    | Some v =>
        match ofold (full2 d w alpha ark) (seq 0 h) v with
        | None => None
        | Some v =>
            match ofold (part2 internal alpha ark) (seq h rp) v with
            | None => None
            | Some v => ofold (full2 d w alpha ark) (seq (h + rp) (rp + rf - (h + rp))) v
            end
        end
    end.
End Poseidon.
Arguments pvec : clear implicits.
Arguments pmat : clear implicits.
Arguments sparse : clear implicits.
Arguments pconfig : clear implicits.

Open Scope Z_scope.
(** ** poseidon2_plonky3_internal_matrix.h:37-66 Apply on a scalar field of at most 32 bits: the stored values and the
    shifts; uint64_t arithmetic. A shift of 64 or more is undefined, and so is reading past the shifts: [None]. *)
Definition p3_entry (reduce : Z -> Z) (full_sum v shift : Z) : option Z :=
  if shift <? 64 then Some (reduce (trunc 64 (full_sum + trunc 64 (Z.shiftl v shift)))) else None.
Definition p3_apply (p : Z) (reduce : Z -> Z) (v shifts : list Z) : option (list Z) :=
  match v with
  | [] => None
  | v0 :: r =>
      let partial_sum := fold_left (fun acc x => trunc 64 (acc + x)) r 0 in
      let full_sum := trunc 64 (partial_sum + v0) in
      let s0 := trunc 64 (partial_sum + sub_mod p (reduce_default p) 0 v0) in
      option_map (cons (reduce s0))
        (all_some (map (fun i => match nth_error r i, nth_error shifts i with
                                 | Some x, Some s => p3_entry reduce full_sum x s
                                 | _, _ => None
                                 end) (seq 0 (length r))))
  end.
(** :53-54, 60-61: kUseMontgomery. *)
Definition p3_apply_mont (p : Z) := p3_apply p (from_mont p).
(** :69-78 FromU62 and 55-57, 62-64; F(lo) + F(hi) in a build without DCHECK. *)
Definition from_u62 (p input : Z) : Z :=
  let lo := trunc 32 (Z.land input p) in
  let hi := trunc 32 (Z.shiftr input 31) in
  sf_add p lo hi.
Definition p3_apply_plain (p : Z) := p3_apply p (from_u62 p).
(** the DCHECKs met by FromU62: its own at :74 and those of the constructor, small_prime_field.h:45-47. *)
Definition from_u62_dcheck (p input : Z) : bool :=
  (input <? 2 ^ 62) && (trunc 32 (Z.land input p) <? p) && (trunc 32 (Z.shiftr input 31) <? p).

(** ** poseidon2/poseidon2_config.h: the configuration for a scalar field and its serialization. *)
Record p2config := { p2_ark : list (list Z); p2_diagonal_minus_one : list Z; p2_shifts : list Z }.
(** :127-149 Create from shifts, F not packed. *)
Definition p2_create_shifts (shifts : list Z) (ark : list (list Z)) : p2config :=
  {| p2_ark := ark; p2_diagonal_minus_one := []; p2_shifts := shifts |}.
(** :165-183 WriteTo and ReadFrom: what is written, and the configuration built from it (:58-65; the shifts are default
    constructed). The bytes of the matrices are not modelled here: writing and reading them is the identity. *)
Definition p2_write (c : p2config) : list (list Z) * list Z := (p2_ark c, p2_diagonal_minus_one c).
Definition p2_read (b : list (list Z) * list Z) : p2config :=
  {| p2_ark := fst b; p2_diagonal_minus_one := snd b; p2_shifts := [] |}.
(** poseidon/poseidon_config_base.h:40-42 operator==, inherited. *)
Definition p2_eqb (a b : p2config) : bool :=
  if list_eq_dec (list_eq_dec Z.eq_dec) (p2_ark a) (p2_ark b) then true else false.
(** poseidon2/poseidon2.h:92-101 ApplyMixPartial for a scalar field of at most 32 bits in Montgomery form. *)
Definition p2_mix_partial (p : Z) (c : p2config) (v : list Z) : option (list Z) := p3_apply_mont p v (p2_shifts c).
