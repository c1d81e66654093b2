(** Model of tachyon/zk/plonk/permutation/grand_product_argument.h (GP), of its use by the lookup prover (zk/lookup/halo2/prover_impl.h) and the permutation prover (permutation_prover_impl.h, permutation_table_store.h),
    and of the expressions both verifiers evaluate (zk/lookup/halo2/verifier.h, permutation_verifier.h). Only definitions.
    Evaluations are lists; the callbacks read rows below the domain size only, so an [nth] never meets its default when the columns have that length (which the theorems require).
    The generator of blinding values is a sequence [rnd] read from position [from] on. [None] is a failed CHECK. *)
From Coq Require Import ZArith List Arith Bool.
From Verif Require Import Field ParallelizeModel SemigroupModel CycleModel CycleLabelModel LookupModel.
Import ListNotations.

Section GrandProduct.
  Variable K : fld.
  Open Scope fld_scope.

  Definition cell (col : list K) (row : nat) : K := nth row col 0.
  Definition cell2 (t : list (list K)) (col row : nat) : K := nth row (nth col t []) 0.

  (** BatchInverseInPlaceSerial. *)
  Definition invert (l : list K) : option (list K) :=
    batch_inverse_serial 0 1 fmul (fun x : K => if feqb x 0 then None else Some (finv x)) (fun x => feqb x 0) (fun x => feqb x 1) true l l 1.

  (** DoCreatePoly, GP:112-130: [gp] is grand_product[1..]; z[i + 1] = z[i] * gp[i] for the usable rows, the rest of the vector keeps its entries; pop_back; Blind without the last row. *)
  Fixpoint running (z : K) (gp : list K) (u : nat) {struct u} : list K :=
    match u, gp with
    | S u', g :: gp' => z :: running (z * g) gp' u'
    | _, _ => z :: gp
    end.
  Definition blind_rows (bf : nat) (rnd : nat -> K) (from : nat) (v : list K) : option (list K * nat) :=
    if length v <? bf then None else Some (firstn (length v - bf) v ++ map rnd (seq from bf), (from + bf)%nat).
  Definition do_create_poly (n bf : nat) (rnd : nat -> K) (from : nat) (last_z : K) (gp : list K) : option (list K * K * nat) :=
    let u := (n - (bf + 1))%nat in
    let z := running last_z gp u in
    match blind_rows bf rnd from (removelast z) with
    | Some (z', from') => Some (z', cell z u, from')
    | None => None
    end.

  (** CreatePolySerial, GP:42-70. *)
  Definition create_poly_serial (n bf : nat) (rnd : nat -> K) (from : nat) (num den : nat -> K) : option (list K * nat) :=
    match invert (map den (seq 0 n)) with
    | None => None
    | Some inv => match do_create_poly n bf rnd from 1 (map (fun p => fst p * num (snd p)) (combine inv (seq 0 n))) with
                  | Some (z, _, from') => Some (z, from')
                  | None => None
                  end
    end.

  (** CreateExcessivePoly, GP:78-110: [num], [den] take the column and the row; each chunk of rows multiplies its denominators over the columns, inverts them, and multiplies the numerators in. *)
  Definition excessive_chunk (num den : nat -> nat -> K) (num_cols : nat) (call : Z * Z * Z) : option (list K) :=
    match call with
    | (_, start, len) =>
        let rows := seq (Z.to_nat start) (Z.to_nat len) in
        match invert (map (fun j => fold_left (fun acc i => acc * den i j) (seq 0 num_cols) 1) rows) with
        | None => None
        | Some inv => Some (map (fun p => fold_left (fun acc i => acc * num i (snd p)) (seq 0 num_cols) (fst p)) (combine inv rows))
        end
    end.
  Definition create_excessive_poly (threads : Z) (n bf : nat) (rnd : nat -> K) (from : nat) (num den : nat -> nat -> K) (num_cols : nat) (last_z : K) : option (list K * K * nat) :=
    match all_chunks (map (excessive_chunk num den num_cols) (chunk_calls (Z.of_nat n) (size_per_thread threads (Z.of_nat n) None))) with
    | None => None
    | Some gp => do_create_poly n bf rnd from last_z gp
    end.

  (** The lookup prover: CreateGrandProductPoly with its callbacks, zk/lookup/halo2/prover_impl.h:128-139 and 267-297. [a], [s]: compressed input and table; [a'], [s']: the permuted pair. *)
  Definition lookup_grand_product (n bf : nat) (rnd : nat -> K) (from : nat) (beta gamma : K) (a s a' s' : list K) : option (list K * nat) :=
    create_poly_serial n bf rnd from
      (fun j => (cell a j + beta) * (cell s j + gamma)) (fun j => (cell a' j + beta) * (cell s' j + gamma)).

  (** The permutation prover: CreateGrandProductPolys, permutation_prover_impl.h:20-52, with GetChunkSize and GetChunkOffset, permutation_table_store.h:36-86, and the callbacks of lines 212-243.
      One more value is generated after each polynomial (its blind). *)
  Definition chunk_size (cols len i : nat) : nat :=
    let num := Nat.div (cols + len - 1) len in
    if i <? num - 1 then len else (cols - (num - 1) * len)%nat.
  Fixpoint permutation_products (threads : Z) (n bf : nat) (rnd : nat -> K) (beta gamma : K) (values unpermuted permuted : list (list K)) (cols len : nat) (todo i from : nat) (last_z : K) : option (list (list K) * K) :=
    match todo with
    | O => Some ([], last_z)
    | S todo' =>
        let off := (i * len)%nat in
        match create_excessive_poly threads n bf rnd from
                (fun c j => cell2 values (off + c) j + beta * cell2 unpermuted (off + c) j + gamma)
                (fun c j => cell2 values (off + c) j + beta * cell2 permuted (off + c) j + gamma)
                (chunk_size cols len i) last_z with
        | None => None
        | Some (z, last_z', from') =>
            match permutation_products threads n bf rnd beta gamma values unpermuted permuted cols len todo' (S i) (S from') last_z' with
            | None => None
            | Some (zs, last) => Some (z :: zs, last)
            end
        end
    end.
  Definition create_permutation_products (threads : Z) (n bf : nat) (rnd : nat -> K) (beta gamma : K) (values unpermuted permuted : list (list K)) (cols len : nat) : option (list (list K) * K) :=
    permutation_products threads n bf rnd beta gamma values unpermuted permuted cols len (Nat.div (cols + len - 1) len) 0 0 1.

  (** What the lookup verifier evaluates, zk/lookup/halo2/verifier.h:35-66 and 105-121. *)
  Definition lookup_verifier_evals (first last blind beta gamma : K) (z z_next a' a'_prev s' a s : K) : list K :=
    let active := 1 - (last + blind) in
    [first * (1 - z);
     last * (z * z - z);
     active * (z_next * (a' + beta) * (s' + gamma) - z * (a + beta) * (s + gamma));
     first * (a' - s');
     active * (a' - s') * (a' - a'_prev)].

  (** What the permutation verifier evaluates, permutation_verifier.h:28-78: [zs] the values of the grand products, [nexts] at the next row, [lasts] at the row ω^last x; [vals], [subs] the column values and permutation values. *)
  Definition chunk_expression (delta x beta gamma : K) (len i : nat) (z z_next : K) (vals subs : list K) : K :=
    let left := fold_left (fun acc p => acc * (fst p + beta * snd p + gamma)) (combine vals subs) z_next in
    let '(rhs, _) := fold_left (fun (st : K * K) v => let (acc, d) := st in (acc * (v + d + gamma), d * delta)) vals (z, beta * x * delta ^ (i * len)) in
    left - rhs.
  Definition chunk_of (l : list K) (len i : nat) : list K := firstn len (skipn (i * len) l).
  Definition permutation_verifier_evals (first last blind delta x beta gamma : K) (len : nat) (zs nexts lasts vals subs : list K) : list K :=
    match zs with
    | [] => []
    | z0 :: zr =>
        let active := 1 - (last + blind) in
        let zl := List.last zs 0 in
        [first * (1 - z0); last * (zl * zl - zl)] ++
        map (fun p => first * (fst p - snd p)) (combine zr lasts) ++
        map (fun i => active * chunk_expression delta x beta gamma len i (cell zs i) (cell nexts i) (chunk_of vals len i) (chunk_of subs len i)) (seq 0 (Nat.div (length vals + len - 1) len))
    end.
End GrandProduct.
Arguments cell {K}. Arguments cell2 {K}. Arguments invert {K}. Arguments running {K}. Arguments blind_rows {K}. Arguments do_create_poly {K}. Arguments create_poly_serial {K}.
Arguments excessive_chunk {K}. Arguments create_excessive_poly {K}. Arguments lookup_grand_product {K}. Arguments permutation_products {K}. Arguments create_permutation_products {K}.
Arguments lookup_verifier_evals {K}. Arguments chunk_expression {K}. Arguments chunk_of {K}. Arguments permutation_verifier_evals {K}.
