(** Multilinear evaluations and sumcheck: what a user of math/polynomials/multivariate and crypto/sumcheck/multilinear relies on. SumcheckSpec.v defines [mlx] (the multilinear polynomial with given
    values at the corners of the cube), [corner], [cube_sum], [combination], [max_factors], [stands_for] (what ToBigInt computes), [tuples] and [messages]; [accepts] is in SumcheckProof6.v. *)
From Coq Require Import ZArith List Bool Arith Lia.
From Verif Require Import Field Zp PolySpec CosetProps SumcheckModel SumcheckSpec SumcheckProof2 SumcheckProof6 SumcheckExtra.
Import ListNotations.
Open Scope nat_scope.

(** Evaluate is the multilinear extension: it has the stored values at the corners, is affine in every variable, and fixing some variables first changes nothing. Points of another size are refused. *)
Theorem C160_evaluate : forall (K : fld) (md n : nat) (l : list K), n < 64 -> n <= md -> length l = 2 ^ n ->
  (forall x, length x = n -> mle_evaluate md l x = Some (mlx l x)) /\
  (forall b, b < 2 ^ n -> mle_evaluate md l (corner n b) = Some (nth b l 0%fld)) /\
  (forall x y (a b t : K), length x + S (length y) = n -> exists u v, mle_evaluate md l (x ++ a :: y) = Some u /\ mle_evaluate md l (x ++ b :: y) = Some v /\
     mle_evaluate md l (x ++ (a + t * (b - a))%fld :: y) = Some (u + t * (v - u))%fld) /\
  (forall x, length x <= n -> exists l', fix_variables md x l = Some l' /\ length l' = 2 ^ (n - length x) /\
     forall y, length y = n - length x -> mle_evaluate md l' y = mle_evaluate md l (x ++ y)) /\
  (forall x, length x <> n -> mle_evaluate md l x = None) /\ (forall x, n < length x -> fix_variables md x l = None).
Proof. exact evaluate_all. Qed.
Print Assumptions C160_evaluate.
Definition v13 (z : list Z) : list F13 := map (fun n => g13 n) z.
Definition z13 (o : option F13) : option Z := option_map (zval 13) o.
Lemma z13_inj (a b : option F13) : z13 a = z13 b -> a = b.
Proof. destruct a as [a|], b as [b|]; cbn; intros H; [|discriminate H..|reflexivity]. injection H as H. f_equal. apply zp_eq. exact H. Qed.
Lemma lz13_inj : forall a b : list F13, map (zval 13) a = map (zval 13) b -> a = b.
Proof. induction a as [|x a IH]; intros [|y b] H; try discriminate; [reflexivity|]. injection H as H1 H2. f_equal; [apply zp_eq; exact H1|apply IH; exact H2]. Qed.
Example C160_nonvacuous : length (v13 [1; 5; 2; 9]%Z) = 2 ^ 2 /\ z13 (mle_evaluate 2 (v13 [1; 5; 2; 9]%Z) (v13 [0; 1]%Z)) = Some 2%Z /\
  z13 (mle_evaluate 2 (v13 [1; 5; 2; 9]%Z) (v13 [3; 7]%Z)) = Some 5%Z /\ option_map (map (zval 13)) (fix_variables 2 (v13 [3]%Z) (v13 [1; 5; 2; 9]%Z)) = Some [0; 10]%Z /\
  mle_evaluate 2 (v13 [1; 5; 2; 9]%Z) (v13 [3]%Z) = None.
Proof. repeat split; vm_compute; reflexivity. Qed.

(** The operators: addition, subtraction and negation agree with those of the functions at every point, multiplication and division at the corners; division by zero gives no result. *)
Theorem C161_operators : forall (K : fld) (md n : nat) (a b : list K), n < 64 -> n <= md -> values_for n a -> values_for n b ->
  (exists c, mle_add md a b = Some c /\ values_for n c /\ forall x, length x = n -> mlx c x = (mlx a x + mlx b x)%fld) /\
  (exists c, mle_sub md a b = Some c /\ values_for n c /\ forall x, length x = n -> mlx c x = (mlx a x - mlx b x)%fld) /\
  (exists c, mle_negate md a = Some c /\ values_for n c /\ forall x, length x = n -> mlx c x = (- mlx a x)%fld) /\
  (exists c, mle_mul md a b = Some c /\ values_for n c /\ forall i, i < 2 ^ n -> mlx c (corner n i) = (mlx a (corner n i) * mlx b (corner n i))%fld) /\
  ((forall i, i < 2 ^ n -> mlx b (corner n i) <> 0%fld) ->
   exists c, mle_div md a b = Some (Some c) /\ values_for n c /\ forall i, i < 2 ^ n -> (mlx c (corner n i) * mlx b (corner n i))%fld = mlx a (corner n i)) /\
  (a <> [] -> (exists i, i < 2 ^ n /\ mlx b (corner n i) = 0%fld) -> mle_div md a b = Some None).
Proof. exact operators. Qed.
Print Assumptions C161_operators.
(** Vectors of different sizes: Add, Sub and Mul abort, Div gives no result. *)
Theorem C161_sizes : forall (K : fld) (md : nat) (a b : list K), a <> [] -> b <> [] -> length a <> length b ->
  mle_add md a b = None /\ mle_sub md a b = None /\ mle_mul md a b = None /\ mle_div md a b = Some None.
Proof. exact sizes_differ. Qed.
Print Assumptions C161_sizes.
Example C161_nonvacuous : values_for 1 (v13 [3; 4]%Z) /\ values_for 1 (v13 [5; 2]%Z) /\ option_map (map (zval 13)) (mle_add 2 (v13 [3; 4]%Z) (v13 [5; 2]%Z)) = Some [8; 6]%Z /\
  option_map (option_map (map (zval 13))) (mle_div 2 (v13 [3; 4]%Z) (v13 [5; 2]%Z)) = Some (Some [11; 2]%Z) /\ mle_div 2 (v13 [3; 4]%Z) (v13 [5; 0]%Z) = Some None /\
  mle_add 2 (v13 [3; 4]%Z) (v13 [5]%Z) = None.
Proof. split; [right; reflexivity|]. split; [right; reflexivity|]. repeat split; vm_compute; reflexivity. Qed.

(** The comment of Evaluate says that a point with too few components is completed with zeros; every such call aborts, although the completed point has a value. *)
Theorem C162_short_points_refuted : forall (K : fld) (md n : nat) (l x : list K), n < 64 -> n <= md -> length l = 2 ^ n -> length x < n ->
  mle_evaluate md l x = None /\ mle_evaluate md l (x ++ repeat 0%fld (n - length x)) = Some (mlx l (x ++ repeat 0%fld (n - length x))).
Proof. exact short_point. Qed.
Print Assumptions C162_short_points_refuted.
Example C162_nonvacuous : mle_evaluate 3 (v13 [1; 2; 3; 4; 5; 6; 7; 8]%Z) (v13 [2; 3]%Z) = None /\ z13 (mle_evaluate 3 (v13 [1; 2; 3; 4; 5; 6; 7; 8]%Z) (v13 [2; 3; 0]%Z)) = Some 9%Z.
Proof. split; vm_compute; reflexivity. Qed.

(** operator== between evaluations for the same number of variables is equality of the functions. *)
Theorem C163_equality : forall (K : fld) (n : nat) (a b : list K), n < 64 -> values_for n a -> values_for n b ->
  mle_eqb a b = true <-> forall x, length x = n -> mlx a x = mlx b x.
Proof. exact same_function. Qed.
Print Assumptions C163_equality.
Example C163_nonvacuous : values_for 1 (v13 [0; 0]%Z) /\ mle_eqb [] (v13 [0; 0]%Z) = true /\ mle_eqb (v13 [0; 1]%Z) (v13 [0; 0]%Z) = false.
Proof. split; [right; reflexivity|]. split; vm_compute; reflexivity. Qed.

(** operator== is not an equivalence: two zeros of different sizes are both equal to the empty one but not to each other. *)
Theorem C164_equivalence_refuted : exists (K : fld) (a b c : list K), mle_eqb a b = true /\ mle_eqb b c = true /\ mle_eqb a c = false.
Proof. exists F13, (v13 [0]%Z), [], (v13 [0; 0]%Z). repeat split; vm_compute; reflexivity. Qed.
Print Assumptions C164_equivalence_refuted.

(** A linear combination made by AddTerm: Combine is the sum over the cube, Evaluate the value at a point, whatever the number of threads; every table is kept once. *)
Theorem C165_linear_combination : forall (K : fld) (heap : nat -> list K) (threads : Z) (md n : nat) (ts : list (K * list nat)), (0 < threads < 128)%Z -> n < 62 -> n <= md ->
  (2 * Z.of_nat (length ts) + threads < 2 ^ 64)%Z -> (2 * Z.of_nat (max_factors ts) + threads < 2 ^ 64)%Z -> Forall (fun t => Forall (fun p => length (heap p) = 2 ^ n) (snd t)) ts ->
  exists lc, build_lc heap n ts = Some lc /\ lc_combine heap threads lc = Some (cube_sum n (combination heap ts)) /\
    (forall x, length x = n -> lc_evaluate heap threads md lc x = Some (combination heap ts x)) /\ (forall x, length x <> n -> lc_evaluate heap threads md lc x = None) /\
    lc_max lc = max_factors ts /\ NoDup (lc_flat lc).
Proof. exact combination_built. Qed.
Print Assumptions C165_linear_combination.
(** A factor for another number of variables is refused. *)
Theorem C165_wrong_size : forall (K : fld) (heap : nat -> list K) (lc : lincomb K) (c : K) (ps : list nat) (k : nat), k < 64 -> k <> lc_vars lc ->
  Exists (fun p => length (heap p) = 2 ^ k) ps -> add_lc_term heap lc c ps = None.
Proof. exact add_wrong. Qed.
Print Assumptions C165_wrong_size.
Definition heap13 (p : nat) : list F13 := match p with 0 => v13 [1; 5; 2; 9]%Z | 1 => v13 [3; 4; 0; 7]%Z | 2 => v13 [1; 2]%Z | _ => v13 [1; 2; 3]%Z end.
Definition terms13 : list (F13 * list nat) := [(g13 2, [0; 1; 0]); (g13 5, [1])]%nat.
Definition with_lc {A} (d : A) (f : lincomb F13 -> A) : A := match build_lc heap13 2 terms13 with Some lc => f lc | None => d end.
Example C165_nonvacuous : Forall (fun t => Forall (fun p => length (heap13 p) = 2 ^ 2) (snd t)) terms13 /\ with_lc [] lc_flat = [0; 1] /\
  with_lc None (fun lc => z13 (lc_combine heap13 3 lc)) = Some 6%Z /\ with_lc None (fun lc => z13 (lc_evaluate heap13 3 2 lc (v13 [3; 7]%Z))) = Some 8%Z /\
  with_lc true (fun lc => match add_lc_term heap13 lc (g13 2) [0; 2] with Some _ => true | None => false end) = false.
Proof. split; [repeat constructor|]. repeat split; vm_compute; reflexivity. Qed.

(** InterpolateUniPoly: the value at any point of the polynomial with fewer coefficients than values that has these values at 0, 1, 2, ... *)
Theorem C166_interpolate : forall (K : fld) (big : K -> Z) (threads : Z) (poly : list K) (x : K), (0 < threads < 128)%Z -> (2 * Z.of_nat (length poly) + threads < 2 ^ 64)%Z ->
  stands_for big (length poly) -> poly <> [] ->
  exists P, length P <= length poly /\ (forall i, i < length poly -> eval P (fnat i) = nth i poly 0%fld) /\ interpolate_uni_poly big threads poly x = Some (eval P x).
Proof. exact interpolation. Qed.
Print Assumptions C166_interpolate.
Notation big13 := big_of.
Example C166_nonvacuous : stands_for big13 3 /\ z13 (interpolate_uni_poly big13 3 (v13 [1; 2; 5]%Z) (g13 2)) = Some 5%Z /\
  z13 (interpolate_uni_poly big13 3 (v13 [1; 2; 5]%Z) (g13 6)) = Some 11%Z.
Proof. split; [apply big_of_ok; lia|]. split; vm_compute; reflexivity. Qed.

(** Completeness: the honest prover convinces the verifier, for every combination with a factor and every run of challenges. *)
Theorem C167_sumcheck_complete : forall (K : fld) (big : K -> Z) (heap : nat -> list K) (threads : Z) (md mmd n : nat) (ts : list (K * list nat)) (rs : list K), (0 < threads < 128)%Z -> n < 62 ->
  0 < n <= mmd -> 0 < max_factors ts <= md -> Forall (fun t => Forall (fun p => length (heap p) = 2 ^ n) (snd t)) ts -> stands_for big (max_factors ts + 1) ->
  (2 * Z.of_nat (max_factors ts + 1) + threads < 2 ^ 64)%Z -> (2 * Z.of_nat (length ts) + threads < 2 ^ 64)%Z -> length rs = n ->
  exists lc, build_lc heap n ts = Some lc /\ run_protocol big heap threads md mmd lc rs = Some true.
Proof. exact complete. Qed.
Print Assumptions C167_sumcheck_complete.
Example C167_nonvacuous : max_factors terms13 = 3 /\ stands_for big13 (max_factors terms13 + 1) /\ with_lc None (fun lc => run_protocol big13 heap13 3 3 2 lc (v13 [6; 11]%Z)) = Some true.
Proof. split; [reflexivity|]. split; [apply big_of_ok; vm_compute; lia|]. vm_compute; reflexivity. Qed.

(** Soundness: if the claimed sum is wrong, then however the prover chooses its messages (each from the challenges before it), at most n d |S|^(n-1) of the |S|^n runs of challenges from S lead to
    acceptance together with a true subclaim, where d is the largest number of factors. *)
Theorem C168_sumcheck_sound : forall (K : fld) (big : K -> Z) (heap : nat -> list K) (threads : Z) (n : nat) (ts : list (K * list nat)) (S : list K) (strategy : list K -> list K) (sum : K),
  (0 < threads < 128)%Z -> NoDup S -> stands_for big (max_factors ts + 1) -> (2 * Z.of_nat (max_factors ts + 1) + threads < 2 ^ 64)%Z -> sum <> cube_sum n (combination heap ts) ->
  length (filter (accepts big threads n (max_factors ts) sum strategy (combination heap ts)) (tuples S n)) <= n * max_factors ts * length S ^ (n - 1).
Proof. exact soundness. Qed.
Print Assumptions C168_sumcheck_sound.
(** A cheating prover for one variable and the claim 9 instead of 8: it is caught by all but one challenge. The bound is 1 of 13. *)
Definition cheat13 (seen : list F13) : list F13 := v13 [3; 6]%Z.
Definition line13 : list (F13 * list nat) := [(g13 1, [0])]%nat.
Definition lheap13 (p : nat) : list F13 := v13 [3; 5]%Z.
Definition nine13 : F13 := g13 9.
Example C168_nonvacuous : nine13 <> cube_sum 1 (combination lheap13 line13) /\ max_factors line13 = 1 /\
  map (fun r => accepts big13 3 1 1 nine13 cheat13 (combination lheap13 line13) r) (tuples (v13 [0; 1; 2; 3]%Z) 1) = [true; false; false; false].
Proof. split; [intros H; apply (f_equal (zval 13)) in H; vm_compute in H; discriminate|]. split; vm_compute; reflexivity. Qed.

(** A combination without factors: the honest run indexes a vector of one element at 1, although its sum is 0. *)
Theorem C169_empty_combination_refuted : exists (K : fld) (big : K -> Z) (heap : nat -> list K) (rs : list K) lc, build_lc heap 2 [] = Some lc /\ stands_for big 1 /\
  length rs = 2 /\ lc_combine heap 3 lc = Some 0%fld /\ run_protocol big heap 3 2 2 lc rs = None.
Proof. exact empty_combination. Qed.
Print Assumptions C169_empty_combination_refuted.

(** After CheckAndGenerateSubclaim returned true, a second call reads the randomness that the first one moved away. *)
Theorem C170_second_check_refuted : forall (K : fld) (big : K -> Z) (threads : Z) (v v' : verifier K) (sum : K) sub, 0 < v_vars v ->
  check_subclaim big threads v sum = Some (v', Some sub) -> check_subclaim big threads v' sum = None.
Proof. exact second_check. Qed.
Print Assumptions C170_second_check_refuted.
Example C170_nonvacuous : let v := mk_verifier 1 1 (v13 [6]%Z) [v13 [3; 5]%Z] in
  match check_subclaim big13 3 v (g13 8) with Some (_, Some (p, e)) => (map (zval 13) p, zval 13 e) = ([6], 2)%Z | _ => False end.
Proof. vm_compute. reflexivity. Qed.

(** Two proving keys with different evaluations compare as equal, and their provers send different messages. *)
Theorem C171_proving_key_equality_refuted : exists (K : fld) (a b : proving_key K) p q, pk_eqb a b = true /\ new_prover a = Some p /\ new_prover b = Some q /\
  option_map snd (prover_round 3 2 p) <> option_map snd (prover_round 3 2 q) /\ prover_round 3 2 p <> None /\ prover_round 3 2 q <> None.
Proof. exact pk_equality. Qed.
Print Assumptions C171_proving_key_equality_refuted.

(** AddTerm takes evaluations whose number is not a power of two. operator[] gives 0 for the missing ones, Combine counts them as 1, and Evaluate reads outside the vector. *)
Theorem C172_ragged_evaluations_refuted : exists (K : fld) (heap : nat -> list K) (c : K) lc, length (heap 0) = 3 /\ build_lc heap 2 [(c, [0])] = Some lc /\
  lc_combine heap 3 lc = Some (c * (mle_at (heap 0%nat) 0 + mle_at (heap 0%nat) 1 + mle_at (heap 0%nat) 2 + 1))%fld /\ mle_at (heap 0) 3 = 0%fld /\
  exists x, length x = 2 /\ lc_evaluate heap 3 2 lc x = None.
Proof. exact ragged. Qed.
Print Assumptions C172_ragged_evaluations_refuted.

(** A prover can make the verifier abort: a message with a wrong number of values is not rejected but fails a check. *)
Theorem C173_malformed_message_refuted : forall (K : fld) (big : K -> Z) (threads : Z) (n d : nat) (r sum : K) (msg : list K), 0 < n -> length msg <> d + 1 ->
  forall rs ms, length ms = n - 1 -> check_subclaim big threads (mk_verifier n d (r :: rs) (msg :: ms)) sum = None.
Proof. exact malformed. Qed.
Print Assumptions C173_malformed_message_refuted.
Example C173_nonvacuous : check_subclaim big13 3 (mk_verifier 1 1 (v13 [6]%Z) [v13 [3]%Z]) (g13 8) = None.
Proof. reflexivity. Qed.
