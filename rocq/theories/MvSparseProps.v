(** Properties of sparse multivariate polynomials. In all statements [chunks] is any way of splitting a vector into consecutive
    chunks and [clt] any comparison of coefficients. *)
From Coq Require Import ZArith NArith List Bool Lia Sorted.
From Verif Require Import Field Zp MvSparseModel MvSparseSpec MvSparseProof MvSparseExtra.
Import ListNotations.
Open Scope fld_scope.

Definition two_chunks (A : Type) (l : list A) : list (list A) := [firstn 1 l; skipn 1 l].
Lemma two_chunks_concat A l : concat (two_chunks A l) = l.
Proof. unfold two_chunks. cbn [concat]. rewrite app_nil_r. apply firstn_skipn. Qed.
Definition no_lt (a b : F7) : bool := false.
(** 1 + 2 x0 + x1^3 over the field of seven elements. *)
Definition sample : list (list (N * N) * F7) := [([(0, 0)%N], 1); ([(0, 1)%N], 1 + 1); ([(1, 3)%N], 1)].

(** C240: Evaluate returns the sum of coefficient times product of powers, however the work is split. *)
Theorem C240_evaluate (K : fld) (chunks : forall A : Type, list A -> list (list A)) (n : nat)
    (ts : list (list (N * N) * K)) (pts : list K) :
  (forall A l, concat (chunks A l) = l) -> (length pts <= n)%nat -> variables_below K (length pts) ts ->
  evaluate K chunks (mkpoly K (Some n) ts) pts = Ret (value K (at_point K pts) ts).
Proof. exact (fun H => evaluate_ok K chunks H n ts pts). Qed.
Print Assumptions C240_evaluate.
Example C240_nonvacuous : variables_below F7 2 sample /\
  evaluate F7 two_chunks (mkpoly F7 (Some 2%nat) sample) [1; 1 + 1] = Ret (1 + 1 + 1 + 1).
Proof.
  split; [| reflexivity]. intros t e Ht He. cbn in Ht.
  destruct Ht as [<- | [<- | [<- | []]]]; destruct He as [<- | []]; cbn; lia.
Qed.

(** C241: a point with more coordinates than variables is refused; one with fewer is not, and is read outside its bounds. *)
Theorem C241_long_points_refused (K : fld) (chunks : forall A : Type, list A -> list (list A)) (n : nat)
    (ts : list (list (N * N) * K)) (pts : list K) :
  (n < length pts)%nat -> evaluate K chunks (mkpoly K (Some n) ts) pts = Abort.
Proof. exact (evaluate_abort K chunks n ts pts). Qed.
Print Assumptions C241_long_points_refused.
Theorem C241_short_points_refuted (K : fld) (chunks : forall A : Type, list A -> list (list A)) (n : nat) (pts : list K) :
  (forall A l, concat (chunks A l) = l) -> (length pts < n)%nat ->
  exists ts, variables_below K n ts /\ evaluate K chunks (mkpoly K (Some n) ts) pts = Undef.
Proof. exact (fun H => short_point K chunks H n pts). Qed.
Print Assumptions C241_short_points_refuted.
Example C241_nonvacuous :
  evaluate F7 two_chunks (mkpoly F7 (Some 2%nat) sample) [1] = Undef /\
  evaluate F7 two_chunks (mkpoly F7 (Some 2%nat) sample) [1; 1; 1] = Abort.
Proof. split; reflexivity. Qed.

(** C242: Negate and NegateInPlace negate the value and keep the number of variables. *)
Theorem C242_negate (K : fld) (max_degree : Z) (n : nat) (ts : list (list (N * N) * K)) (p : poly K) :
  create K max_degree n ts = Ret p ->
  exists q, negate K max_degree p = Ret q /\ num_vars K q = num_vars K p /\ terms K q = terms K (negate_in_place K p) /\
  forall x, value K x (terms K q) = - value K x (terms K p).
Proof. exact (negate_ok K max_degree n ts p). Qed.
Print Assumptions C242_negate.
Example C242_nonvacuous : create F7 3 2 sample = Ret (mkpoly F7 (Some 2%nat) sample).
Proof. reflexivity. Qed.

(** C243: the value of a sum or difference is the sum or difference of the values. Proved for polynomials whose terms are powers of
    single variables, and for those where literals that the code's comparison does not order are the same monomial. Missing: the case
    in which every term cancels (C245), and other literals. *)
Theorem C243_univariate_terms_partial (K : fld) (max_degree : Z) (neg : bool) (n m : option nat)
    (ts us : list (list (N * N) * K)) :
  ts <> [] -> us <> [] -> proper K ts -> proper K us -> univariate K ts -> univariate K us ->
  match add_in_place K max_degree neg (mkpoly K n ts) (mkpoly K m us) with
  | Ret c => num_vars K c = n /\
             (forall x, value K x (terms K c) = if neg then value K x ts - value K x us else value K x ts + value K x us) /\
             (forall t, In t (terms K c) -> snd t <> 0)
  | Undef => forall x, (if neg then value K x ts - value K x us else value K x ts + value K x us) = 0
  | Abort => False
  end.
Proof. exact (add_in_place_ok K max_degree neg n ts m us). Qed.
Print Assumptions C243_univariate_terms_partial.
Theorem C243_ordered_literals_partial (K : fld) (max_degree : Z) (neg : bool) (n m : option nat)
    (ts us : list (list (N * N) * K)) :
  ts <> [] -> us <> [] -> proper K ts -> proper K us ->
  (forall ta tb, In ta ts -> In tb us -> lit_lt (fst ta) (fst tb) = Ret false -> lit_lt (fst tb) (fst ta) = Ret false ->
     same_monomial (fst ta) (fst tb)) ->
  match add_in_place K max_degree neg (mkpoly K n ts) (mkpoly K m us) with
  | Ret c => num_vars K c = n /\
             (forall x, value K x (terms K c) = if neg then value K x ts - value K x us else value K x ts + value K x us)
  | Undef => forall x, (if neg then value K x ts - value K x us else value K x ts + value K x us) = 0
  | Abort => False
  end.
Proof. exact (add_any_ok K max_degree neg n ts m us). Qed.
Print Assumptions C243_ordered_literals_partial.
(** x0 x2 + x1 x2 comes out as 2 x0 x2. *)
Theorem C243_sum_refuted (K : fld) (clt : K -> K -> bool) (max_degree : Z) :
  1 + 1 <> (0 : K) -> (2 <= max_degree)%Z -> exists a b c,
  create_checked K clt max_degree 3 [([(0, 1); (2, 1)]%N, 1)] = Ret a /\
  create_checked K clt max_degree 3 [([(1, 1); (2, 1)]%N, 1)] = Ret b /\
  els_sorted [(0, 1); (2, 1)]%N = true /\ els_sorted [(1, 1); (2, 1)]%N = true /\
  add_in_place K max_degree false a b = Ret c /\
  value K (fun v => if N.eqb v 0 then 0 else 1) (terms K c) <>
  value K (fun v => if N.eqb v 0 then 0 else 1) (terms K a) + value K (fun v => if N.eqb v 0 then 0 else 1) (terms K b).
Proof. exact (add_wrong K clt max_degree). Qed.
Print Assumptions C243_sum_refuted.
Example C243_nonvacuous : proper F7 sample /\ univariate F7 sample /\ 1 + 1 <> (0 : F7) /\
  exists c, add_in_place F7 3 false (mkpoly F7 (Some 2%nat) sample) (mkpoly F7 (Some 2%nat) sample) = Ret c /\ length (terms F7 c) = 3%nat.
Proof.
  split.
  { intros t Ht. cbn in Ht. destruct Ht as [<- | [<- | [<- | []]]]; (split; [discriminate | reflexivity]). }
  split.
  { intros t Ht. cbn in Ht. destruct Ht as [<- | [<- | [<- | []]]]; cbn; eexists _, _; reflexivity. }
  split; [apply feqb_neq; reflexivity |]. eexists. split; reflexivity.
Qed.

(** C244: Compact keeps the value and leaves no zero coefficient. Proved for at least one term and total degrees below 2^31. A power
    x^(2^32) is taken for a constant. *)
Theorem C244_compact_partial (K : fld) (ts : list (list (N * N) * K)) :
  ts <> [] -> (forall t, In t ts -> (total_degree (fst t) < 2 ^ 31)%Z) ->
  exists ts', compact K ts = Ret ts' /\ (forall x, value K x ts' = value K x ts) /\ (forall t, In t ts' -> snd t <> 0).
Proof. exact (compact_ok K ts). Qed.
Print Assumptions C244_compact_partial.
Theorem C244_huge_exponent_refuted (K : fld) :
  degree K [([(0, 4294967296)%N], 1)] = Ret 0%Z /\
  exists ts, compact K [([(0, 4294967296)%N], 1)] = Ret ts /\
  value K (fun _ => 0) ts = 1 /\ value K (fun _ => 0) [([(0, 4294967296)%N], 1)] = 0.
Proof. exact (huge_wrong K). Qed.
Print Assumptions C244_huge_exponent_refuted.
Example C244_nonvacuous : exists ts, compact F7 (sample ++ sample) = Ret ts /\ length ts = 6%nat.
Proof. eexists. split; reflexivity. Qed.

(** C245: subtracting a polynomial from itself gives zero. Refuted for every polynomial other than zero: the compaction of an empty
    list of terms starts at [begin() + 1]. *)
Theorem C245_self_difference_refuted (K : fld) (max_degree : Z) (n : option nat) (ts : list (list (N * N) * K)) :
  ts <> [] -> (forall t, In t ts -> fst t <> []) ->
  add_in_place K max_degree true (mkpoly K n ts) (mkpoly K n ts) = Undef /\
  add K max_degree true (mkpoly K n ts) (mkpoly K n ts) = Undef.
Proof. exact (self_difference K max_degree n ts). Qed.
Print Assumptions C245_self_difference_refuted.
Example C245_nonvacuous : sample <> [] /\ add F7 3 true (mkpoly F7 (Some 2%nat) sample) (mkpoly F7 (Some 2%nat) sample) = Undef.
Proof. split; [discriminate | reflexivity]. Qed.

(** C246: the polynomial returned by Add or Sub can be evaluated. Refuted for all summands other than zero: its number of variables is
    indeterminate. *)
Theorem C246_sum_evaluates_refuted (K : fld) (chunks : forall A : Type, list A -> list (list A)) (max_degree : Z) (neg : bool)
    (a b c : poly K) (pts : list K) :
  terms K a <> [] -> terms K b <> [] -> add K max_degree neg a b = Ret c -> evaluate K chunks c pts = Undef.
Proof. exact (sum_not_evaluated K chunks max_degree neg a b c pts). Qed.
Print Assumptions C246_sum_evaluates_refuted.
Example C246_nonvacuous : exists c, add F7 3 false (mkpoly F7 (Some 2%nat) sample) (mkpoly F7 (Some 2%nat) sample) = Ret c.
Proof. eexists. reflexivity. Qed.

(** C247: Degree is the largest total degree of a term, and the constructor bounds it. Proved for sorted polynomials in one variable. *)
Theorem C247_degree_one_variable_partial (K : fld) (clt : K -> K -> bool) (ts : list (list (N * N) * K)) (v : N) :
  ts <> [] -> (forall t, In t ts -> exists e, fst t = [(v, e)] /\ (e < 2147483648)%N) ->
  terms_sorted K clt ts = Ret true ->
  exists d, degree K ts = Ret (Z.of_N d) /\ (exists t, In t ts /\ fst t = [(v, d)]) /\
  (forall t e, In t ts -> fst t = [(v, e)] -> (e <= d)%N).
Proof. exact (degree_univariate K clt ts v). Qed.
Print Assumptions C247_degree_one_variable_partial.
(** x0^1000000 + x1 has Degree 1 and passes the constructor's check for any bound. *)
Theorem C247_degree_refuted (K : fld) (clt : K -> K -> bool) (max_degree : Z) : (1 <= max_degree)%Z -> exists p,
  create_checked K clt max_degree 2 [([(0, 1000000)%N], 1); ([(1, 1)%N], 1)] = Ret p /\ degree K (terms K p) = Ret 1%Z.
Proof. exact (degree_wrong K clt max_degree). Qed.
Print Assumptions C247_degree_refuted.
Example C247_nonvacuous : terms_sorted F7 no_lt [([(1, 0)%N], 1); ([(1, 2)%N], 1); ([(1, 5)%N], 1)] = Ret true /\
  degree F7 [([(1, 0)%N], 1); ([(1, 2)%N], 1); ([(1, 5)%N], 1)] = Ret 5%Z.
Proof. split; reflexivity. Qed.

(** C248: indexing by a literal returns its coefficient. Proved for terms in strictly ascending order. *)
Theorem C248_lookup_partial (K : fld) (ts : list (list (N * N) * K)) (l : list (N * N)) (c : K) :
  l <> [] -> StronglySorted (fun t u : list (N * N) * K => lit_lt (fst t) (fst u) = Ret true) ts -> In (l, c) ts ->
  coefficient_at K ts l = Ret c.
Proof. exact (lookup_found K ts l c). Qed.
Print Assumptions C248_lookup_partial.
Theorem C248_lookup_sound (K : fld) (ts : list (list (N * N) * K)) (l : list (N * N)) (c : K) :
  proper K ts -> (total_degree l < 2 ^ 31)%Z -> coefficient_at K ts l = Ret c -> c <> 0 ->
  exists l', same_monomial l' l /\ In (l', c) ts.
Proof. exact (lookup_sound K ts l c). Qed.
Print Assumptions C248_lookup_sound.
(** x1 x2 is not found in x0 x2 + x1 x2, which CreateChecked accepts as sorted. *)
Theorem C248_lookup_refuted (K : fld) (clt : K -> K -> bool) (max_degree : Z) : exists p, (2 <= max_degree)%Z ->
  create_checked K clt max_degree 3 [([(0, 1); (2, 1)]%N, 1); ([(1, 1); (2, 1)]%N, 1)] = Ret p /\
  In ([(1, 1); (2, 1)]%N, 1) (terms K p) /\ coefficient_at K (terms K p) [(1, 1); (2, 1)]%N = Ret 0.
Proof. exact (lookup_wrong K clt max_degree). Qed.
Print Assumptions C248_lookup_refuted.
Example C248_nonvacuous :
  StronglySorted (fun t u : list (N * N) * F7 => lit_lt (fst t) (fst u) = Ret true) sample /\
  coefficient_at F7 sample [(1, 3)%N] = Ret 1.
Proof. split; [repeat constructor | reflexivity]. Qed.
