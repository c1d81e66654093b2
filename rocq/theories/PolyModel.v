(** Univariate polynomials in coefficient form.
    Dense polynomials are their coefficient vectors, constant term first; sparse ones are their vectors of
    (degree, coefficient) terms.  [None] is a failed CHECK or an out-of-bounds access.  Loops over a vector
    whose iterations write distinct elements (OMP_PARALLEL_FOR) are written as maps: C12 shows that every
    schedule of such a loop gives that result.  Vectors fit in memory, so their indices do not wrap; the
    degrees of sparse polynomials are 64-bit words. *)
From Coq Require Import ZArith List Bool Arith.
From Verif Require Import Field BigIntModel ParallelizeModel SemigroupModel.
Import ListNotations.
Open Scope fld_scope.

(** Iterating a partial step over a list. *)
Fixpoint ofold {A B} (f : A -> B -> option A) (l : list B) (a : A) : option A :=
  match l with
  | [] => Some a
  | x :: r => match f a x with Some a' => ofold f r a' | None => None end
  end.

Section Poly.
  Context {K : fld}.
  Definition iszero (x : K) : bool := feqb x 0.
  Definition isone (x : K) : bool := feqb x 1.
  (** vector[i] += v / vector[i] = v; out of bounds is undefined *)
  Definition add_at (c : list K) (i : nat) (v : K) : option (list K) :=
    match nth_error c i with Some x => Some (set_nth i (x + v) c) | None => None end.
  Definition store_at (c : list K) (i : nat) (v : K) : option (list K) :=
    match nth_error c i with Some _ => Some (set_nth i v c) | None => None end.

  (** ** Dense coefficients *)
  Definition dense : Type := list K.

  (** univariate_dense_coefficients.h:220-228 RemoveHighDegreeZeros *)
  Fixpoint drop_zeros (l : list K) : list K :=
    match l with [] => [] | x :: r => if iszero x then drop_zeros r else l end.
  Definition remove_high (l : dense) : dense := rev (drop_zeros (rev l)).
  (** :160-163 Degree *)
  Definition degree (l : dense) : nat := match l with [] => 0%nat | _ => (length l - 1)%nat end.
  (** :143-148 operator[] *)
  Definition at_ (l : dense) (i : nat) : K := match nth_error l i with Some x => x | None => 0 end.
  (** :150-153 GetLeadingCoefficient *)
  Definition leading (l : dense) : K := last l 0.
  (** :155-158 IsZero, IsOne *)
  Definition is_zero (l : dense) : bool := match l with [] => true | _ => false end.
  Definition is_one (l : dense) : bool := match l with [x] => isone x | _ => false end.
  (** :52-64 the constructors; [md] is MaxDegree *)
  Definition dense_make (md : Z) (cleanup : bool) (l : dense) : option dense :=
    let l := if cleanup then remove_high l else l in
    if (Z.of_nat (degree l) <=? md)%Z then Some l else None.

  (** univariate_polynomial_ops.h:34-54 Add(D, D) *)
  Definition dense_add (a b : dense) : dense :=
    if is_zero a then b else if is_zero b then a else
    remove_high (map (fun i => at_ a i + at_ b i) (seq 0 (Nat.max (length a) (length b)))).
  (** :56-77 AddInPlace(D, D); ParallelizeResize only grows here *)
  Definition dense_add_in_place (a b : dense) : dense :=
    if is_zero a then b else if is_zero b then a else
    let l := a ++ repeat 0 (Nat.max (length a) (length b) - length a) in
    remove_high (map (fun i => if Nat.ltb i (length b) then at_ l i + at_ b i else at_ l i) (seq 0 (length l))).
  (** :226-236 Negate *)
  Definition dense_negate (md : Z) (a : dense) : option dense :=
    if is_zero a then Some a else dense_make md false (map (fun x => - x) a).
  (** :238-250 NegateInPlace *)
  Definition dense_negate_in_place (a : dense) : dense :=
    if is_zero a then a else remove_high (map (fun x => - x) a).
  (** :131-151 Sub(D, D) *)
  Definition dense_sub (md : Z) (a b : dense) : option dense :=
    if is_zero a then dense_negate md b else if is_zero b then Some a else
    Some (remove_high (map (fun i => at_ a i - at_ b i) (seq 0 (Nat.max (length a) (length b))))).
  (** :153-173 SubInPlace(D, D) *)
  Definition dense_sub_in_place (md : Z) (a b : dense) : option dense :=
    if is_zero a then dense_negate md b else if is_zero b then Some a else
    let l := a ++ repeat 0 (Nat.max (length a) (length b) - length a) in
    Some (remove_high (map (fun i => if Nat.ltb i (length b) then at_ l i - at_ b i else at_ l i) (seq 0 (length l)))).
  (** :252-265 Mul(D, scalar) *)
  Definition dense_mul_scalar (md : Z) (a : dense) (s : K) : option dense :=
    if is_zero a || isone s then Some a else if iszero s then Some [] else
    dense_make md false (map (fun x => x * s) a).
  (** :267-280 MulInPlace(D, scalar) *)
  Definition dense_mul_scalar_in_place (a : dense) (s : K) : dense :=
    if is_zero a || isone s then a else remove_high (map (fun x => x * s) a).
  (** :346-361 Div(D, scalar), DivInPlace(D, scalar); the outer option is the returned std::optional *)
  Definition dense_div_scalar (md : Z) (a : dense) (s : K) : option (option dense) :=
    if iszero s then None else Some (dense_mul_scalar md a (finv s)).
  Definition dense_div_scalar_in_place (a : dense) (s : K) : option dense :=
    if iszero s then None else Some (dense_mul_scalar_in_place a (finv s)).

  (** :466-490 DoMul(D, D) *)
  Definition dense_do_mul (a b : dense) : option dense :=
    let c := repeat 0 (degree a + degree b + 1) in
    option_map remove_high
      (ofold (fun c i =>
         match nth_error b i with
         | None => None
         | Some bi => if iszero bi then Some c else
             ofold (fun c j => match nth_error a j with
                               | None => None
                               | Some aj => add_at c (i + j) (aj * bi) end) (seq 0 (length a)) c
         end) (seq 0 (length b)) c).
  (** :282-295 Mul(D, D) *)
  Definition dense_mul (a b : dense) : option dense :=
    if is_zero a || is_zero b then Some [] else if is_one a then Some b else if is_one b then Some a else
    dense_do_mul a b.
  (** :297-313 MulInPlace(D, D) *)
  Definition dense_mul_in_place (a b : dense) : option dense :=
    if is_zero a || is_one b then Some a else if is_one a then Some b else if is_zero b then Some [] else
    dense_do_mul a b.

  (** :520-568 Divide(D, D): the loop, with the divisor's update of the remainder as a parameter [upd];
      every iteration shortens the remainder, so [fuel] = its length suffices (proved) *)
  Fixpoint divide_loop (upd : dense -> nat -> K -> option dense) (d_degree : nat) (inv : K) (fuel : nat)
    (q r : dense) : option (dense * dense) :=
    if is_zero r || Nat.ltb (degree r) d_degree then Some (q, r) else
    match fuel with
    | O => None
    | S fuel =>
        let q_coeff := leading r * inv in
        let d := (degree r - d_degree)%nat in
        match store_at q d q_coeff, upd r d q_coeff with
        | Some q, Some r => divide_loop upd d_degree inv fuel q (remove_high r)
        | _, _ => None
        end
    end.
  (** inner loop for a dense divisor, :545-549 *)
  Definition upd_dense (other : dense) (r : dense) (d : nat) (q_coeff : K) : option dense :=
    ofold (fun r i => match nth_error other i with
                      | None => None
                      | Some x => add_at r (d + i) (- (q_coeff * x)) end) (seq 0 (length other)) r.
  (** The result: [None] abort; [Some None] Divide returned false; [Some (Some (quotient, remainder))] *)
  Definition divide_gen (md : Z) (upd : dense -> nat -> K -> option dense) (other_zero : bool) (other_degree : nat) (other_leading : K)
    (other_dense : option dense) (self : dense) : option (option (dense * dense)) :=
    if other_zero then Some None else
    if is_zero self then match other_dense with Some o => Some (Some ([], o)) | None => None end else
    if Nat.ltb (degree self) other_degree then Some (Some ([], self)) else
    if iszero other_leading then None else
    match divide_loop upd other_degree (finv other_leading) (length self)
            (repeat 0 (degree self - other_degree + 1)) self with
    | None => None
    | Some (q, r) => match dense_make md false q with
                     | None => None
                     | Some q => Some (Some (remove_high q, r)) end
    end.
  Definition dense_divide (md : Z) (self other : dense) : option (option (dense * dense)) :=
    divide_gen md (upd_dense other) (is_zero other) (degree other) (leading other) (Some other) self.
  (** :363-374 Div, :390-401 Mod, :417-424 DivMod *)
  Definition dense_div (md : Z) (self other : dense) : option (option dense) :=
    option_map (option_map (fun qr => remove_high (fst qr))) (dense_divide md self other).
  Definition dense_mod (md : Z) (self other : dense) : option (option dense) :=
    option_map (option_map (fun qr => remove_high (snd qr))) (dense_divide md self other).

  (** ** Evaluation *)

  (** univariate_dense_coefficients.h:275-283 HornerEvaluate *)
  Definition horner (l : list K) (x : K) : K := fold_left (fun result c => result * x + c) (rev l) 0.
  (** :256-273 DoEvaluate, :171-175 Evaluate *)
  Definition dense_evaluate (threads : Z) (l : dense) (x : K) : K :=
    match l with
    | [] => 0
    | c0 :: _ =>
        if iszero x then c0 else
        fold_left fadd
          (parallelize_map_by_chunk (num_elements_per_thread threads (Z.of_nat (length l)) None)
             (fun i c s => horner s x * do_pow 1 fmul (fun y => y * y) [trunc 64 (i * c)] x) l) 0
    end.
  (** :181-196 Fold; reading coefficients_[i + 1] past the end is undefined *)
  Definition dense_fold (md : Z) (l : dense) (r : K) : option dense :=
    let size := length l in
    let c := repeat 0 (Nat.div (size + 1) 2) in
    match ofold (fun c i =>
            match nth_error l (2 * i + 1), nth_error l (2 * i) with
            | Some odd, Some even =>
                match store_at c i (odd * r) with
                | Some c => add_at c i even
                | None => None end
            | _, _ => None end) (seq 0 (Nat.div (size + 1) 2)) c with
    | None => None
    | Some c =>
        let c := if Nat.eqb (Nat.modulo size 2) 0 then Some c
                 else match nth_error l (size - 1) with Some x => store_at c (Nat.div size 2) x | None => None end in
        match c with None => None | Some c => dense_make md true c end
    end.
  (** :86-131 FromRoots *)
  Definition from_roots_step (c : list K) (iroot : nat * K) : option (list K) :=
    let '(i, root) := iroot in
    match ofold (fun c j => match nth_error c (j - 1), nth_error c j with
                            | Some p, Some x => store_at c j (p - root * x)
                            | _, _ => None end) (rev (seq 1 (i + 1))) c with
    | None => None
    | Some c => match nth_error c 0 with Some x => store_at c 0 (x * - root) | None => None end
    end.
  Definition from_roots (roots : list K) : option dense :=
    match store_at (repeat 0 (length roots + 1)) 0 1 with
    | None => None
    | Some c => ofold from_roots_step (combine (seq 0 (length roots)) roots) c
    end.
  (** univariate_polynomial.h:131-149 EvaluateVanishingPolyByRoots and its serial version *)
  Definition vanishing_serial (roots : list K) (x : K) : K := fold_left (fun acc r => acc * (x - r)) roots 1.
  Definition vanishing_by_roots (threads : Z) (roots : list K) (x : K) : K :=
    fold_left fmul
      (parallelize_map_by_chunk (num_elements_per_thread threads (Z.of_nat (length roots)) None)
         (fun _ _ s => vanishing_serial s x) roots) 1.

  (** lagrange_interpolation.h:20-109.  [None]: abort (also coeffs_sums[0] of an empty vector); [Some None]: returned false *)
  Definition lagrange_denoms (threads : Z) (points : list K) : option (list K) :=
    parallelize threads None
      (fun i c s =>
         let ds := map (fun k => let i := (Z.to_nat (i * c) + k)%nat in
                     fold_left (fun d j => if Nat.eqb i j then d else d * (nth i points 0 - nth j points 0)) (seq 0 (length points)) 1)
                     (seq 0 (length s)) in
         match do_batch_inverse 0 1 fmul (fun x : K => if iszero x then None else Some (finv x)) iszero isone true ds ds 1 with
         | Some inv => inv
         | None => [] (* CHECK fails; excluded by C19_batch_inverse: the serial batch inverse always succeeds on a field *)
         end)
      (repeat 1 (length points)).
  (** the numerator: the loop over j skips i, and the k loop starts at the number of roots multiplied so far *)
  Definition lagrange_numerator (points : list K) (i : nat) : option (list K) :=
    match store_at (repeat 0 (length points)) 0 1 with
    | None => None
    | Some c =>
        option_map fst (ofold (fun ck jp =>
          let '(c, k_start) := ck in let '(j, pj) := (jp : nat * K) in
          if Nat.eqb i j then Some (c, k_start) else
          option_map (fun c => (c, (k_start + 1)%nat)) (from_roots_step c ((k_start - 1)%nat, pj)))
          (combine (seq 0 (length points)) points) (c, 1%nat))
    end.
  Definition lagrange_chunk (points denoms : list K) (start : nat) (chunk : list K) : option (list K) :=
    ofold (fun sum ie =>
      let '(i, eval) := (ie : nat * K) in
      match lagrange_numerator points i, nth_error denoms i with
      | Some c, Some denom => Some (map (fun jc => nth (fst jc) sum 0 + snd jc * eval * denom) (combine (seq 0 (length c)) c))
      | _, _ => None end)
      (combine (seq start (length chunk)) chunk) (repeat 0 (length points)).
  Fixpoint all_some {A} (l : list (option A)) : option (list A) :=
    match l with [] => Some [] | None :: _ => None | Some x :: r => option_map (cons x) (all_some r) end.
  Definition lagrange_interpolate (md : Z) (threads : Z) (points evals : list K) : option (option dense) :=
    if negb (Nat.eqb (length points) (length evals)) then Some None else
    match evals with
    | [e] => option_map Some (dense_make md true [e])
    | _ =>
        match lagrange_denoms threads points with
        | None => None
        | Some denoms =>
            match all_some (parallelize_map_by_chunk (num_elements_per_thread threads (Z.of_nat (length evals)) None)
                     (fun i c s => lagrange_chunk points denoms (Z.to_nat (i * c)) s) evals) with
            | None => None
            | Some sums =>
                match sums with
                | [] => None
                | s0 :: rest =>
                    let total := fold_left (fun acc s => map (fun j => nth j acc 0 + nth j s 0) (seq 0 (length points))) rest s0 in
                    option_map Some (dense_make md true total)
                end
            end
        end
    end.
End Poly.

(** ** Sparse coefficients *)
Section Sparse.
  Context {K : fld}.
  Local Notation term := (Z * K)%type.
  Local Notation sparse := (list (Z * K)).
  (** univariate_sparse_coefficients.h:37-38 *)
  Definition neg_term (t : term) : term := (fst t, - snd t).
  Definition scale_term (s : K) (t : term) : term := (fst t, snd t * s).
  Definition sp_is_zero (s : sparse) : bool := match s with [] => true | _ => false end.
  (** :192-195 IsOne *)
  Definition sp_is_one (s : sparse) : bool := match s with [(d, c)] => (d =? 0)%Z && isone c | _ => false end.
  (** :197-200 Degree *)
  Definition sp_degree (s : sparse) : Z := match s with [] => 0%Z | _ => fst (last s (0%Z, 0)) end.
  (** :185-188 GetLeadingCoefficient *)
  Definition sp_leading (s : sparse) : K := match s with [] => 0 | _ => snd (last s (0%Z, 0)) end.
  (** :179-183 operator[] and :287-294 GetCoefficient: std::lower_bound finds the first term whose degree is
      not below [i] (the terms are sorted) *)
  Definition sp_at (s : sparse) (i : Z) : K :=
    match find (fun t : term => (i <=? fst t)%Z) s with
    | Some t => if (fst t =? i)%Z then snd t else 0
    | None => 0 end.
  (** :107-120 the constructors *)
  Definition sp_make (md : Z) (cleanup : bool) (s : sparse) : option sparse :=
    let s := if cleanup then filter (fun t : term => negb (iszero (snd t))) s else s in
    if (sp_degree s <=? md)%Z then Some s else None.

  (** univariate_polynomial_ops.h:787-838 DoAdd<NEGATION>; the result goes through the constructor *)
  Definition sgn (neg : bool) (t : term) : term := if neg then neg_term t else t.
  Fixpoint sp_merge (neg : bool) (a : sparse) : sparse -> sparse :=
    fix go (b : sparse) : sparse :=
      match a with
      | [] => map (sgn neg) b
      | x :: a' =>
          match b with
          | [] => a
          | y :: b' =>
              if (fst x <? fst y)%Z then x :: sp_merge neg a' b
              else if (fst y <? fst x)%Z then sgn neg y :: go b'
              else let c := if neg then snd x - snd y else snd x + snd y in
                   if iszero c then sp_merge neg a' b' else (fst x, c) :: sp_merge neg a' b'
          end
      end.
  (** :583-606 Add, AddInPlace *)
  Definition sp_add (md : Z) (a b : sparse) : option sparse :=
    if sp_is_zero a then Some b else if sp_is_zero b then Some a else sp_make md false (sp_merge false a b).
  (** :638-648 Negate, :650-659 NegateInPlace *)
  Definition sp_negate (md : Z) (a : sparse) : option sparse :=
    if sp_is_zero a then Some a else sp_make md false (map neg_term a).
  Definition sp_negate_in_place (a : sparse) : sparse := map neg_term a.
  (** :613-636 Sub, SubInPlace *)
  Definition sp_sub (md : Z) (a b : sparse) : option sparse :=
    if sp_is_zero a then sp_negate md b else if sp_is_zero b then Some a else sp_make md false (sp_merge true a b).
  (** :666-677 Mul(S, scalar), :679-692 MulInPlace(S, scalar) *)
  Definition sp_mul_scalar (md : Z) (a : sparse) (s : K) : option sparse :=
    if sp_is_zero a || iszero s then Some [] else sp_make md false (map (scale_term s) a).
  Definition sp_mul_scalar_in_place (a : sparse) (s : K) : sparse :=
    if sp_is_zero a || isone s then a else if iszero s then [] else map (scale_term s) a.
  (** :841-868 DoMul(S, S): accumulate one product into c_terms, then base::UnstableSort.  [sort] is any
      sorting procedure (see the theorems). *)
  Fixpoint sp_accumulate (c : sparse) (d : Z) (f : K) : sparse :=
    match c with
    | [] => [(d, f)]
    | t :: r => if (fst t =? d)%Z then (let x := snd t + f in if iszero x then r else (fst t, x) :: r)
                else t :: sp_accumulate r d f
    end.
  Definition sp_products (a b : sparse) : sparse :=
    fold_left (fun c ta => fold_left (fun c tb =>
      let f := snd ta * snd tb in
      if iszero f then c else sp_accumulate c (trunc 64 (fst ta + fst tb)) f) b c) a [].
  Definition sp_do_mul (sort : sparse -> sparse) (md : Z) (a b : sparse) : option sparse :=
    sp_make md false (sort (sp_products a b)).
  (** :694-722 Mul, MulInPlace *)
  Definition sp_mul (sort : sparse -> sparse) (md : Z) (a b : sparse) : option sparse :=
    if sp_is_zero a || sp_is_zero b then Some [] else if sp_is_one a then Some b else if sp_is_one b then Some a else
    sp_do_mul sort md a b.
  Definition sp_mul_in_place (sort : sparse -> sparse) (md : Z) (a b : sparse) : option sparse :=
    if sp_is_zero a || sp_is_one b then Some a else if sp_is_one a then Some b else if sp_is_zero b then Some [] else
    sp_do_mul sort md a b.

  (** :771-779 ToDense(S) *)
  Definition sp_to_dense (md : Z) (s : sparse) : option (dense (K := K)) :=
    if sp_is_zero s then Some [] else
    dense_make md false (map (fun i => sp_at s (Z.of_nat i)) (seq 0 (Z.to_nat (sp_degree s) + 1))).
  (** :431-443 ToSparse(D) *)
  Definition to_sparse (md : Z) (l : dense (K := K)) : option sparse :=
    sp_make md false
      (flat_map (fun i => if iszero (at_ l i) then [] else [(Z.of_nat i, at_ l i)]) (seq 0 (degree l + 1))).

  (** Mixed operations. :79-98 Add(D, S), :175-194 Sub(D, S) *)
  Definition ds_add (md : Z) (a : dense (K := K)) (b : sparse) : option (dense (K := K)) :=
    if is_zero a then sp_to_dense md b else if sp_is_zero b then Some a else
    Some (remove_high (map (fun i => at_ a i + sp_at b (Z.of_nat i)) (seq 0 (Nat.max (degree a) (Z.to_nat (sp_degree b)) + 1)))).
  Definition ds_sub (md : Z) (a : dense (K := K)) (b : sparse) : option (dense (K := K)) :=
    if is_zero a then match sp_negate md b with Some b => sp_to_dense md b | None => None end else if sp_is_zero b then Some a else
    Some (remove_high (map (fun i => at_ a i - sp_at b (Z.of_nat i)) (seq 0 (Nat.max (degree a) (Z.to_nat (sp_degree b)) + 1)))).
  (** :446-464 Copy<NEGATION> *)
  Definition ds_copy (neg : bool) (b : sparse) : option (dense (K := K)) :=
    option_map remove_high
      (ofold (fun l (t : term) => store_at l (Z.to_nat (fst t)) (snd (sgn neg t))) b (repeat 0 (Z.to_nat (sp_degree b) + 1))).
  (** :100-129 AddInPlace(D, S), :196-224 SubInPlace(D, S) *)
  Definition ds_add_in_place (neg : bool) (a : dense (K := K)) (b : sparse) : option (dense (K := K)) :=
    if is_zero a then ds_copy neg b else if sp_is_zero b then Some a else
    let deg := degree a in
    let upper := repeat 0 (Z.to_nat (sp_degree b) - deg) in
    match ofold (fun lu (t : term) =>
            let '(l, u) := lu in let d := Z.to_nat (fst t) in
            if Nat.leb d deg then option_map (fun l => (l, u)) (add_at l d (snd (sgn neg t)))
            else option_map (fun u => (l, u)) (store_at u (d - deg - 1) (snd (sgn neg t)))) b (a, upper) with
    | None => None
    | Some (l, u) => Some (remove_high (l ++ u))
    end.
  (** :492-517 DoMul(D, S) *)
  Definition ds_do_mul (a : dense (K := K)) (b : sparse) : option (dense (K := K)) :=
    option_map remove_high
      (ofold (fun c (t : term) =>
         if iszero (snd t) then Some c else
         ofold (fun c j => match nth_error a j with
                           | None => None
                           | Some aj => add_at c (Z.to_nat (fst t) + j) (aj * snd t) end) (seq 0 (length a)) c)
        b (repeat 0 (degree a + Z.to_nat (sp_degree b) + 1))).
  (** :315-328 Mul(D, S), :330-344 MulInPlace(D, S) *)
  Definition ds_mul (md : Z) (a : dense (K := K)) (b : sparse) : option (dense (K := K)) :=
    if is_zero a || sp_is_zero b then Some [] else if is_one a then sp_to_dense md b else if sp_is_one b then Some a else
    ds_do_mul a b.
  Definition ds_mul_in_place (a : dense (K := K)) (b : sparse) : option (dense (K := K)) :=
    if is_zero a || sp_is_one b then Some a else if is_one a then ds_copy false b else if sp_is_zero b then Some [] else
    ds_do_mul a b.
  (** :550-556 the inner loop of Divide for a sparse divisor *)
  Definition upd_sparse (other : sparse) (r : dense (K := K)) (d : nat) (q_coeff : K) : option (dense (K := K)) :=
    ofold (fun r (t : term) => add_at r (d + Z.to_nat (fst t)) (- (q_coeff * snd t))) other r.
  Definition ds_divide (md : Z) (self : dense (K := K)) (other : sparse) : option (option (dense (K := K) * dense (K := K))) :=
    divide_gen md (upd_sparse other) (sp_is_zero other) (Z.to_nat (sp_degree other)) (sp_leading other) (sp_to_dense md other) self.
  (** :761-769 DivMod(S, D) *)
  Definition sd_divide (md : Z) (self : sparse) (other : dense (K := K)) : option (option (dense (K := K) * dense (K := K))) :=
    if sp_is_zero self then Some (Some ([], other)) else
    match sp_to_dense md self with Some s => dense_divide md s other | None => None end.
  (** :741-749 Div(S, D) *)
  Definition sd_div (md : Z) (self : sparse) (other : dense (K := K)) : option (option (dense (K := K))) :=
    if sp_is_zero self then Some (Some []) else
    match sp_to_dense md self with Some s => dense_div md s other | None => None end.

  (** univariate_sparse_coefficients.h:204-226 Evaluate.  The exponent is F(term.degree).ToBigInt(): the degree
      is converted to a field element (modulus [p], [n] limbs) and back.  Converting a value that is not below
      the modulus fails a DCHECK in debug builds; a Montgomery field reduces it in release builds. *)
  Definition sp_exponent (p : Z) (n : nat) (d : Z) : list Z := (d mod p)%Z :: repeat 0%Z (n - 1).
  Fixpoint squares (x : K) (n : nat) : list K := match n with O => [] | S n => x :: squares (x * x) n end.
  (** 64 - CountLeadingZeroes64(degree), at least one power *)
  Definition num_powers (d : Z) : nat := Nat.max 1 (Z.to_nat (if (d =? 0)%Z then 0 else Z.log2 d + 1)).
  Definition sp_evaluate (p : Z) (n : nat) (s : sparse) (x : K) : option K :=
    if sp_is_zero s then Some 0 else
    let table := squares x (num_powers (sp_degree s)) in
    ofold (fun sum (t : term) =>
      match pow_with_table 1 fmul table (sp_exponent p n (fst t)) with
      | Some v => Some (sum + v * snd t)
      | None => None end) s 0.
  (** :228-256 Fold; the terms are kept most recent first *)
  Definition sp_fold_step (r : K) (acc : sparse) (t : term) : sparse :=
    let h := (fst t / 2)%Z in
    if (fst t mod 2 =? 0)%Z then (h, snd t) :: acc else
    match acc with
    | (d, c) :: rest =>
        if (d =? h)%Z then
          let c := if iszero r then c else c + snd t * r in
          if iszero c then rest else (d, c) :: rest
        else if iszero r then acc else (h, snd t * r) :: acc
    | [] => if iszero r then acc else [(h, snd t * r)]
    end.
  Definition sp_fold (md : Z) (s : sparse) (r : K) : option sparse :=
    sp_make md false (rev (fold_left (sp_fold_step r) s [])).
End Sparse.
Arguments dense K : clear implicits.
