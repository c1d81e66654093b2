(** Property theorems C200-C209: the vanishing argument of the PLONK prover and verifier.
    Vocabulary (VanishingSpec): [interpolates w n poly column], [witness_interpolates]; [evaluations_at ... x], what an honest proof contains for the challenge x; [satisfied], every constraint is zero on
    every row; [shaped], every query exists and there are as many grand products as the circuit needs; [number_of_constraints]. DomainSpec: [lagrange_basis]. *)
From Coq Require Import ZArith List Bool Lia Arith Ring Field Field_theory.
From Verif Require Import Field Zp BigIntModel BigIntSpec FFTModel FFTSpec FFTExtra PolyModel PolySpec DomainModel DomainSpec ExprModel ExprSpec GrandProductModel GrandProductSpec BatchProps LookupProps
  VanishingModel VanishingSpec VanishingProof VanishingProof5 VanishingProof6 VanishingProof7 VanishingExtra.
Import ListNotations.
Open Scope nat_scope.

(** ** C200: completeness. If every constraint holds on every row, the prover's quotient exists, is committed to in degree - 1 pieces of n coefficients, and for every challenge x outside the domain what the verifier computes
    from the evaluations of the columns is the value at x of the combined pieces. For every thread count, schedule, circuit with gates, permutation and lookups, and number of circuits proved together. *)
Theorem C200_completeness : forall (K : fld) (adicity : nat) (root : K) (k e : nat) (d ext : domain K) (threads : Z) (sched : scheduler) (small small_ext : bool) (it it_ext : item K)
    (bf : nat) (sys : constraint_system K) (delta zeta : K) (sigmas sigma_cols : list (list K)) (ch : challenges K) (ws cols : list (witness K)),
  let n := 2 ^ k in let w := generator adicity root k in
  adicity < 62 -> primitive_root root (2 ^ adicity) -> k <= adicity -> k <= 30 -> k <= e <= adicity -> radix2_domain adicity root k 1%fld d -> radix2_domain adicity root e 1%fld ext ->
  (0 < threads < 128)%Z -> schedules sched -> complete_item small false k w it -> complete_item small_ext false e (generator adicity root e) it_ext ->
  (zeta * zeta * zeta = 1)%fld -> zeta <> 1%fld -> bf + 2 <= n -> n * (compute_degree sys - 1) <= 2 ^ e ->
  ws <> [] -> Forall2 (interpolates w n) sigmas sigma_cols -> Forall2 (witness_interpolates w n) ws cols -> Forall (shaped sys n sigmas) ws ->
  Forall (satisfied sys ch delta w n bf sigma_cols) cols ->
  exists key h, make_key threads sched d it bf sigmas = Some key /\ create_h threads sched d ext it it_ext sys key bf ch delta zeta ws = Some h /\
    length (h_pieces n h) = compute_degree sys - 1 /\ Forall (fun p => length p = n) (h_pieces n h) /\
    forall x, (x ^ n)%fld <> 1%fld ->
      evaluate_h threads d sys bf ch delta x (map (fun wit => evaluations_at w n bf sigmas wit x) ws) = Some (eval (combine_pieces n (h_pieces n h) (x ^ n)%fld) x).
Proof.
  exact (fun K adicity root k e d ext threads sched small small_ext it it_ext bf sys delta zeta sigmas sigma_cols ch ws cols Ha Hr Hk Hk30 Hke Hd Hext Hth Hs Hi Hie Hz3 Hz1 Hbf HD Hn Hsig HW HS HSat =>
    complete K adicity root Ha Hr k d Hk Hk30 Hd threads Hth bf Hbf sys delta sigmas sigma_cols Hsig e ext Hke Hext zeta Hz3 Hz1 small sched it it_ext Hs Hi small_ext Hie ch ws cols Hn HW HS HSat HD).
Qed.
Print Assumptions C200_completeness.

Lemma zeta97 : ((m97 35 * m97 35 * m97 35)%fld = 1%fld :> F97) /\ m97 35 <> 1%fld.
Proof. split; [apply zp_eq; vm_compute; reflexivity|]. intros E. apply (f_equal (zval 97)) in E. vm_compute in E. discriminate. Qed.
(** The circuit of VanishingExtra over GF(97) meets the hypotheses. *)
Example C200_nonvacuous : forall y, exists d ext it it_ext key h,
  radix2_domain 5 (m97 28) 2 1%fld d /\ radix2_domain 5 (m97 28) 4 1%fld ext /\ complete_item true false 2 (generator 5 (m97 28) 2) it /\ complete_item true false 4 (generator 5 (m97 28) 4) it_ext /\
  Forall (satisfied sys97 (with_y ch97 y) (m97 5) (generator 5 (m97 28) 2) 4 1 (map col97 sigmas97)) [cols97] /\
  make_key 3 backwards d it 1 sigmas97 = Some key /\ create_h 3 backwards d ext it it_ext sys97 key 1 (with_y ch97 y) (m97 5) (m97 35) [wit97] = Some h /\ length (h_pieces 4 h) = 3 /\
  Forall (fun p => length p = 4) (h_pieces 4 h) /\
  forall x, (x ^ 4)%fld <> 1%fld ->
    evaluate_h 3 d sys97 1 (with_y ch97 y) (m97 5) x (map (fun wit => evaluations_at (generator 5 (m97 28) 2) 4 1 sigmas97 wit x) [wit97]) = Some (eval (combine_pieces 4 (h_pieces 4 h) (x ^ 4)%fld) x).
Proof.
  intros y. destruct (domain97 2 ltac:(lia)) as (d & it & Hd & Hi & _). destruct (domain97 4 ltac:(lia)) as (ext & it_ext & Hext & Hie & _). destruct interpolates97 as [Hsig HW]. destruct circuit97 as (_ & _ & HDeg).
  destruct (C200_completeness F97 5 (m97 28) 2 4 d ext 3 backwards true true it it_ext 1 sys97 (m97 5) (m97 35) sigmas97 (map col97 sigmas97) (with_y ch97 y) [wit97] [cols97] ltac:(lia) root97 ltac:(lia) ltac:(lia) ltac:(lia)
    Hd Hext ltac:(lia) backwards_ok Hi Hie (proj1 zeta97) (proj2 zeta97) ltac:(cbn; lia) ltac:(rewrite HDeg; cbn; lia) ltac:(discriminate) Hsig HW shaped97 (satisfied97 y)) as (key & h & H1 & H2 & H3 & H4 & H5).
  rewrite HDeg in H3. exists d, ext, it, it_ext, key, h. repeat (split; [first [assumption|exact (satisfied97 y)]|]). exact H5.
Qed.

(** ** C201: soundness. Fix the polynomials of the columns, of the permutation and of the lookups. If for as many values of y as there are constraints there are pieces of a quotient, and for n times the degree challenges x the
    verifier's value is that of the combined pieces, then every constraint holds on every row. *)
Theorem C201_soundness : forall (K : fld) (adicity : nat) (root : K) (k : nat) (d : domain K) (threads : Z)
    (bf : nat) (sys : constraint_system K) (delta : K) (sigmas sigma_cols : list (list K)) (ch : challenges K) (ws cols : list (witness K)) (Ys : list K),
  let n := 2 ^ k in let w := generator adicity root k in
  adicity < 62 -> primitive_root root (2 ^ adicity) -> k <= adicity -> k <= 30 -> radix2_domain adicity root k 1%fld d -> (0 < threads < 128)%Z -> bf + 2 <= n ->
  Forall2 (interpolates w n) sigmas sigma_cols -> Forall2 (witness_interpolates w n) ws cols -> Forall (shaped sys n sigmas) ws ->
  NoDup Ys -> length ws * number_of_constraints sys <= length Ys ->
  (forall y, In y Ys -> exists pieces Xs, length pieces = compute_degree sys - 1 /\ Forall (fun p => length p <= n) pieces /\ NoDup Xs /\ n * compute_degree sys <= length Xs /\
     forall x, In x Xs -> evaluate_h threads d sys bf (with_y ch y) delta x (map (fun wit => evaluations_at w n bf sigmas wit x) ws) = Some (eval (combine_pieces n pieces (x ^ n)%fld) x)) ->
  Forall (satisfied sys ch delta w n bf sigma_cols) cols.
Proof.
  exact (fun K adicity root k d threads bf sys delta sigmas sigma_cols ch ws cols Ys Ha Hr Hk Hk30 Hd Hth Hbf Hsig HW HS =>
    sound K adicity root Ha Hr k d Hk Hk30 Hd threads Hth bf Hbf sys delta sigmas sigma_cols Hsig k (conj (le_n k) Hk) ch ws cols Ys HW HS).
Qed.
Print Assumptions C201_soundness.
Definition ys97 : list F97 := map (fun i => m97 (Z.of_nat i)) (seq 0 9).
Definition xs97 : list F97 := filter (fun x => negb (feqb (x ^ 4)%fld 1%fld)) (map (fun i => m97 (Z.of_nat i)) (seq 0 30)).
Lemma range97 m : m <= 97 -> NoDup (map (fun i => m97 (Z.of_nat i)) (seq 0 m)).
Proof.
  intros Hm. apply (NoDup_map_inv (zval 97)). rewrite map_map. rewrite (map_ext_in _ Z.of_nat).
  - apply FinFun.Injective_map_NoDup; [intros a b; apply Nat2Z.inj|apply seq_NoDup].
  - intros i Hi. apply in_seq in Hi. unfold m97. cbn [mkz zval]. apply Z.mod_small. lia.
Qed.
Lemma xs97_length : 16 <= length xs97.
Proof. apply Nat.leb_le. vm_compute. reflexivity. Qed.
Lemma constraints97 : 1 * number_of_constraints sys97 <= length ys97.
Proof. apply Nat.leb_le. vm_compute. reflexivity. Qed.
Lemma xs97_eq : xs97 = filter (fun x => negb (feqb (x ^ 4)%fld 1%fld)) (map (fun i => m97 (Z.of_nat i)) (seq 0 30)).
Proof. reflexivity. Qed.
Lemma xs97_nodup : NoDup xs97.
Proof. rewrite xs97_eq. apply NoDup_filter, range97. lia. Qed.
Lemma xs97_outside x : In x xs97 -> (x ^ 4)%fld <> 1%fld.
Proof. intros Hx. rewrite xs97_eq in Hx. apply filter_In in Hx. destruct Hx as [_ Hx]. apply negb_true_iff in Hx. apply feqb_neq in Hx. exact Hx. Qed.
Example C201_nonvacuous : exists d, radix2_domain 5 (m97 28) 2 1%fld d /\ NoDup ys97 /\ 1 * number_of_constraints sys97 <= length ys97 /\
  (forall y, In y ys97 -> exists pieces Xs, length pieces = compute_degree sys97 - 1 /\ Forall (fun p => length p <= 4) pieces /\ NoDup Xs /\ 4 * compute_degree sys97 <= length Xs /\
     forall x, In x Xs -> evaluate_h 3 d sys97 1 (with_y ch97 y) (m97 5) x (map (fun wit => evaluations_at (generator 5 (m97 28) 2) 4 1 sigmas97 wit x) [wit97]) = Some (eval (combine_pieces 4 pieces (x ^ 4)%fld) x)).
Proof.
  destruct (domain97 2 ltac:(lia)) as (d & it & Hd & Hi & _). destruct (domain97 4 ltac:(lia)) as (ext & it_ext & Hext & Hie & _). destruct interpolates97 as [Hsig HW]. destruct circuit97 as (_ & _ & HDeg).
  exists d. split; [exact Hd|]. split; [apply range97; lia|]. split; [exact constraints97|]. intros y _.
  destruct (C200_completeness F97 5 (m97 28) 2 4 d ext 3 backwards true true it it_ext 1 sys97 (m97 5) (m97 35) sigmas97 (map col97 sigmas97) (with_y ch97 y) [wit97] [cols97] ltac:(lia) root97 ltac:(lia) ltac:(lia) ltac:(lia)
    Hd Hext ltac:(lia) backwards_ok Hi Hie (proj1 zeta97) (proj2 zeta97) ltac:(cbn; lia) ltac:(rewrite HDeg; cbn; lia) ltac:(discriminate) Hsig HW shaped97 (satisfied97 y)) as (key & h & _ & _ & H3 & H4 & H5).
  exists (h_pieces 4 h), xs97. split; [exact H3|]. split; [eapply Forall_impl; [|exact H4]; intros p Hp; cbn in Hp |- *; lia|].
  split; [exact xs97_nodup|]. split; [rewrite HDeg; exact xs97_length|].
  intros x Hx. exact (H5 x (xs97_outside x Hx)).
Qed.

(** ** C202: the shift of the extended domain. GetHalo2Zeta gives a primitive cube root of unity exactly when 3 divides the field's order less one, for both vendors; the coset by such a root of the extended domain has no point in common
    with the domain: the vanishing polynomial is not zero on it. *)
Theorem C202_zeta : forall (K : fld) (m : nat) (trace : list Z) (a : Z) (gen : K),
  0 < m -> limbs 64 m trace -> (0 <= a)%Z -> (0 < val 64 trace)%Z -> (val 64 trace * 2 ^ a < 2 ^ (64 * Z.of_nat m))%Z -> primitive_root gen (Z.to_nat (val 64 trace * 2 ^ a)) ->
  if (val 64 trace mod 3 =? 0)%Z then forall scroll, exists z, get_halo2_zeta scroll trace a gen = Some z /\ (z * z * z = 1)%fld /\ z <> 1%fld
  else forall scroll, get_halo2_zeta scroll trace a gen = None.
Proof. exact (fun K => zeta_spec K). Qed.
Print Assumptions C202_zeta.
Theorem C202_disjoint : forall (K : fld) (adicity : nat) (root : K) (k e : nat) (zeta : K),
  adicity < 62 -> primitive_root root (2 ^ adicity) -> k <= e <= adicity -> (zeta * zeta * zeta = 1)%fld -> zeta <> 1%fld ->
  forall p, ((zeta * generator adicity root e ^ p) ^ (2 ^ k))%fld <> 1%fld.
Proof. exact (fun K adicity root k e zeta Ha Hr Hke => coset_outside K adicity root Ha Hr k e Hke zeta). Qed.
Print Assumptions C202_disjoint.
Example C202_nonvacuous : limbs 64 1 [3]%Z /\ primitive_root (m97 5) (Z.to_nat (val 64 [3]%Z * 2 ^ 5)) /\
  option_map (zval 97) (get_halo2_zeta true [3]%Z 5 (m97 5)) = Some 35%Z /\ option_map (zval 97) (get_halo2_zeta false [3]%Z 5 (m97 5)) = Some 61%Z /\
  get_halo2_zeta true [1]%Z 4 (mkz 17 (prime_check_sound 17 eq_refl) 3 : F17) = None.
Proof. split; [split; [reflexivity|repeat constructor; lia]|]. split; [exact (proj1 roots97)|]. repeat split; vm_compute; reflexivity. Qed.

(** ** C203: to the extended domain and back. CoeffToExtended gives the values of the polynomial on the coset by zeta of the extended domain (all zero for the polynomial without coefficients, whose vector of evaluations is empty),
    ExtendedToCoeff the polynomial with given values there, and DivideByVanishingPolyInPlace divides the value at each point by x^n - 1 there. *)
Theorem C203_extended : forall (K : fld) (adicity : nat) (root : K) (k e : nat) (d ext : domain K) (zeta : K) (threads : Z) (small : bool) (sched : scheduler) (it : item K),
  adicity < 62 -> primitive_root root (2 ^ adicity) -> k <= e <= adicity -> radix2_domain adicity root k 1%fld d -> radix2_domain adicity root e 1%fld ext ->
  (zeta * zeta * zeta = 1)%fld -> zeta <> 1%fld -> (0 < threads < 128)%Z -> schedules sched -> complete_item small false e (generator adicity root e) it ->
  (forall poly, length poly <= 2 ^ e -> exists evals back, extended_column threads sched ext it zeta poly = Some evals /\ evals = values_on poly zeta (generator adicity root e) (2 ^ e) /\
     extended_to_coeff threads sched ext it zeta evals = Some back /\ forall x, eval back x = eval poly x) /\
  (forall evals, length evals = 2 ^ e -> exists h, extended_to_coeff threads sched ext it zeta evals = Some h /\ length h <= 2 ^ e /\ values_on h zeta (generator adicity root e) (2 ^ e) = evals) /\
  (forall evals, length evals = 2 ^ e ->
     divide_by_vanishing threads ext d zeta evals = Some (map (fun p => (nth p evals 0 * finv ((zeta * generator adicity root e ^ p) ^ (2 ^ k) - 1))%fld) (seq 0 (2 ^ e)))).
Proof.
  exact (fun K adicity root k e d ext zeta threads small sched it Ha Hr Hke Hd Hext Hz3 Hz1 Hth Hs Hi =>
    conj (fun poly => extended_round_trip K adicity root Ha Hr k threads Hth e ext Hke Hext zeta Hz3 sched Hs small it Hi poly)
      (conj (to_coeff K adicity root Ha Hr k e ext Hke Hext zeta Hz3 threads Hth small sched it Hs Hi)
        (divide_spec K adicity root Ha Hr k e d ext Hke Hd Hext zeta Hz3 Hz1 threads Hth))).
Qed.
Print Assumptions C203_extended.
Example C203_nonvacuous :
  match create_domain 5 (m97 28) 4, create_domain 5 (m97 28) 8 with
  | Some d, Some ext => match build_item true 3 backwards ext false with
                        | Some it => option_map (map (zval 97)) (extended_column 3 backwards ext it (m97 35) [0%fld; 1%fld]) = Some (map (fun p => (35 * 64 ^ p) mod 97) [0; 1; 2; 3; 4; 5; 6; 7])%Z /\
                                     option_map (map (zval 97)) (extended_to_coeff 3 backwards ext it (m97 35) (map (fun p => m97 35 * m97 64 ^ p)%fld (seq 0 8))) = Some [0; 1]%Z /\
                                     option_map (map (zval 97)) (divide_by_vanishing 3 ext d (m97 35) (map (fun p => m97 35 * m97 64 ^ p)%fld (seq 0 8))) =
                                     Some (map (fun p => zval 97 (m97 35 * m97 64 ^ p * finv ((m97 35 * m97 64 ^ p) ^ 4 - 1))%fld) (seq 0 8))
                        | None => False end
  | _, _ => False end.
Proof. vm_compute. auto. Qed.

(** ** C204: the extended circuit column. At every point of the coset the prover's column, computed by the circuit evaluators part by part and row by row from the compiled graphs, is x^n - 1 times what the verifier computes from
    the evaluations of the columns at that point. The extended domain that ComputeExtendedK chooses is the smallest with room for n (degree - 1) coefficients. *)
Theorem C204_circuit_column : forall (K : fld) (adicity : nat) (root : K) (k e : nat) (d ext : domain K) (threads : Z) (sched : scheduler) (small : bool) (it : item K)
    (bf : nat) (sys : constraint_system K) (delta zeta : K) (sigmas sigma_cols : list (list K)) (ch : challenges K) (ws cols : list (witness K)),
  let n := 2 ^ k in let w := generator adicity root k in
  adicity < 62 -> primitive_root root (2 ^ adicity) -> k <= adicity -> k <= 30 -> k <= e <= adicity -> radix2_domain adicity root k 1%fld d -> radix2_domain adicity root e 1%fld ext ->
  (0 < threads < 128)%Z -> schedules sched -> complete_item small false k w it -> (zeta * zeta * zeta = 1)%fld -> zeta <> 1%fld -> bf + 2 <= n ->
  ws <> [] -> Forall2 (interpolates w n) sigmas sigma_cols -> Forall2 (witness_interpolates w n) ws cols -> Forall (shaped sys n sigmas) ws ->
  exists key column, make_key threads sched d it bf sigmas = Some key /\ build_extended_circuit_column threads sched d ext it sys key bf ch delta zeta ws = Some column /\ length column = 2 ^ e /\
    forall p, p < 2 ^ e -> let x := (zeta * generator adicity root e ^ p)%fld in
      evaluate_h threads d sys bf ch delta x (map (fun wit => evaluations_at w n bf sigmas wit x) ws) = Some (nth p column 0 * finv (x ^ n - 1))%fld.
Proof.
  exact (fun K adicity root k e d ext threads sched small it bf sys delta zeta sigmas sigma_cols ch ws cols Ha Hr Hk Hk30 Hke Hd Hext Hth Hs Hi Hz3 Hz1 Hbf Hn Hsig HW HS =>
    column_verifier K adicity root Ha Hr k d Hk Hk30 Hd threads Hth bf Hbf sys delta sigmas sigma_cols Hsig e ext Hke Hext zeta Hz3 Hz1 small sched it Hs Hi ch ws cols Hn HW HS).
Qed.
Print Assumptions C204_circuit_column.
Theorem C204_extended_k : forall (K : fld) (sys : constraint_system K) (k : nat), (Z.of_nat (2 ^ k * (compute_degree sys - 1)) < 2 ^ 62)%Z ->
  let e := compute_extended_k sys k in k <= e /\ 2 ^ k * (compute_degree sys - 1) <= 2 ^ e /\ forall e', k <= e' -> 2 ^ k * (compute_degree sys - 1) <= 2 ^ e' -> e <= e'.
Proof. exact (fun K => extended_k_spec K). Qed.
Print Assumptions C204_extended_k.
Example C204_nonvacuous : compute_degree sys97 = 4 /\ compute_extended_k sys97 2 = 4 /\ compute_extended_k ({| sys_gates := []; sys_columns := []; sys_lookups := []; sys_minimum := 1 |} : constraint_system F97) 2 = 3 /\
  exists d ext it key column, radix2_domain 5 (m97 28) 2 1%fld d /\ radix2_domain 5 (m97 28) 4 1%fld ext /\ make_key 3 backwards d it 1 sigmas97 = Some key /\
    build_extended_circuit_column 3 backwards d ext it sys97 key 1 ch97 (m97 5) (m97 35) [wit97] = Some column /\ length column = 16.
Proof.
  split; [vm_compute; reflexivity|]. split; [vm_compute; reflexivity|]. split; [vm_compute; reflexivity|].
  destruct (domain97 2 ltac:(lia)) as (d & it & Hd & Hi & _). destruct (domain97 4 ltac:(lia)) as (ext & it_ext & Hext & Hie & _). destruct interpolates97 as [Hsig HW].
  destruct (C204_circuit_column F97 5 (m97 28) 2 4 d ext 3 backwards true it 1 sys97 (m97 5) (m97 35) sigmas97 (map col97 sigmas97) ch97 [wit97] [cols97] ltac:(lia) root97 ltac:(lia) ltac:(lia) ltac:(lia)
    Hd Hext ltac:(lia) backwards_ok Hi (proj1 zeta97) (proj2 zeta97) ltac:(cbn; lia) ltac:(discriminate) Hsig HW shaped97) as (key & column & H1 & H2 & H3 & _).
  exists d, ext, it, key, column. auto.
Qed.

(** ** C205: the verifier's own evaluations of the instance columns. For the queries (column, rotation) it gives the value of the column, padded with zeros and interpolated, at the rotated challenge; if the longest column and the range
    of the rotations together exceed the domain, it aborts. *)
Theorem C205_instance_evals : forall (K : fld) (adicity : nat) (root : K) (k : nat) (d : domain K) (threads : Z) (columns polys : list (list K)) (queries : list (nat * Z)) (x : K),
  let n := 2 ^ k in let w := generator adicity root k in let mn := fst (rotation_range queries) in let mx := snd (rotation_range queries) in
  adicity < 62 -> primitive_root root (2 ^ adicity) -> k <= adicity -> radix2_domain adicity root k 1%fld d -> (0 < threads < 128)%Z ->
  Forall2 (fun inst P => length inst <= n /\ interpolates w n P (inst ++ repeat 0%fld (n - length inst))) columns polys -> Forall (fun q => fst q < length columns) queries ->
  (Z.abs mn < 2 ^ 60)%Z -> (Z.abs mx < 2 ^ 60)%Z ->
  instance_evals threads d columns queries x =
  (if (Z.of_nat n <? Z.of_nat (list_max (map (length (A:=K)) columns)) + mx - mn)%Z then None else Some (map (fun q => eval (nth (fst q) polys []) (rotated w n x (snd q))) queries)).
Proof. exact (fun K adicity root k d threads columns polys queries x Ha Hr Hk Hd Hth => instance_spec K adicity root Ha Hr k d Hk Hd threads Hth columns polys queries x). Qed.
Print Assumptions C205_instance_evals.
(** The column [8; 15] (polynomial c97) read at rotations 0, -1 and 1; at rotations -2 and 1 it is too long for four rows. *)
Example C205_nonvacuous : (length (l97 [8; 15]%Z) <= 4 /\ interpolates (generator 5 (m97 28) 2) 4 c97 (l97 [8; 15]%Z ++ repeat 0%fld 2)) /\
  match create_domain 5 (m97 28) 4 with
  | Some d => option_map (map (zval 97)) (instance_evals 3 d [l97 [8; 15]%Z] [(0, 0%Z); (0, (-1)%Z); (0, 1%Z)] (m97 7)) = Some (map (fun r => zval 97 (eval c97 (rotated (m97 22) 4 (m97 7) r))) [0; -1; 1]%Z) /\
              instance_evals 3 d [l97 [8; 15]%Z] [(0, (-2)%Z); (0, 1%Z)] (m97 7) = None
  | None => False end.
Proof.
  split; [split; [cbn; lia|split; [cbn; lia|]]|vm_compute; auto].
  assert (E : map (zval 97) (l97 [8; 15]%Z ++ repeat 0%fld 2) = map (zval 97) (map (fun j => eval c97 (generator 5 (m97 28) 2 ^ j)%fld) (seq 0 4))) by (vm_compute; reflexivity).
  revert E. generalize (l97 [8; 15]%Z ++ repeat 0%fld 2) (map (fun j => eval c97 (generator 5 (m97 28) 2 ^ j)%fld) (seq 0 4)). intros l. induction l as [|v l IH]; intros [|v' l'] E; try discriminate; [reflexivity|].
  cbn [map] in E. injection E as E1 E2. f_equal; [apply zp_eq; exact E1|apply IH; exact E2].
Qed.

(** ** C206: the selectors of the first row, of the row after the usable ones and of the blinding rows. The polynomials of the proving key and the values that the verifier computes at its challenge are those of the same Lagrange
    polynomials; on the rows they are the indicators. *)
Theorem C206_selectors : forall (K : fld) (adicity : nat) (root : K) (k : nat) (d : domain K) (threads : Z) (small : bool) (sched : scheduler) (it : item K) (bf : nat) (sigmas : list (list K)),
  let n := 2 ^ k in let w := generator adicity root k in let u := n - (bf + 1) in let L x i := lagrange_basis (coset_points 1%fld w n) x i in let blind x := fsum (map (L x) (seq (u + 1) bf)) in
  adicity < 62 -> primitive_root root (2 ^ adicity) -> k <= adicity -> radix2_domain adicity root k 1%fld d -> (0 < threads < 128)%Z -> schedules sched -> complete_item small false k w it -> bf + 2 <= n ->
  (exists key, make_key threads sched d it bf sigmas = Some key /\ key_sigmas key = sigmas /\ (length (key_first key) <= n /\ length (key_last key) <= n /\ length (key_active key) <= n) /\
     forall x, eval (key_first key) x = L x 0 /\ eval (key_last key) x = L x u /\ eval (key_active key) x = (1 - (L x u + blind x))%fld) /\
  (forall x, aux_values threads d bf x = Some (L x 0, blind x, L x u)) /\
  (forall j, j < n -> L (w ^ j)%fld 0 = first_row j /\ L (w ^ j)%fld u = last_row u j /\ blind (w ^ j)%fld = blind_row u j).
Proof.
  exact (fun K adicity root k d threads small sched it bf sigmas Ha Hr Hk Hd Hth Hs Hi Hbf =>
    conj (key_spec K adicity root Ha Hr k d Hk Hd threads small sched it Hth Hs Hi bf Hbf sigmas)
      (conj (aux_spec K adicity root Ha Hr k d Hk Hd threads Hth bf Hbf)
        (fun j Hj => conj (first_on K adicity root Ha Hr k Hk bf Hbf j Hj) (conj (last_on K adicity root Ha Hr k Hk bf Hbf j Hj) (blind_on K adicity root Ha Hr k Hk bf Hbf j Hj))))).
Qed.
Print Assumptions C206_selectors.
Example C206_nonvacuous :
  match create_domain 5 (m97 28) 4 with
  | Some d => match build_item true 3 backwards d false with
              | Some it => option_map (fun key => map (map (fun j => zval 97 (eval j (m97 7)))) [[key_first key; key_last key; key_active key]]) (make_key 3 backwards d it 1 []) = Some [[3; 22; 93]]%Z /\
                           option_map (fun a => let '(f, b, l) := a in [zval 97 f; zval 97 b; zval 97 l]) (aux_values 3 d 1 (m97 7)) = Some [3; 80; 22]%Z /\
                           option_map (fun a => let '(f, b, l) := a in [zval 97 f; zval 97 b; zval 97 l]) (aux_values 3 d 1 (m97 22)) = Some [0; 0; 0]%Z
              | None => False end
  | None => False end.
Proof. vm_compute. auto. Qed.

(** ** C207: when the verifier's value exists. It aborts exactly for the n challenges x with x^n = 1, even if every constraint holds. *)
Theorem C207_verifier_aborts : forall (K : fld) (adicity : nat) (root : K) (k : nat) (d : domain K) (threads : Z) (bf : nat) (sys : constraint_system K) (delta : K) (sigmas : list (list K))
    (ch : challenges K) (ws : list (witness K)) (x : K),
  adicity < 62 -> primitive_root root (2 ^ adicity) -> k <= adicity -> k <= 30 -> radix2_domain adicity root k 1%fld d -> (0 < threads < 128)%Z -> bf + 2 <= 2 ^ k ->
  evaluate_h threads d sys bf ch delta x (map (fun wit => evaluations_at (generator adicity root k) (2 ^ k) bf sigmas wit x) ws) = None <-> (x ^ (2 ^ k) = 1)%fld.
Proof. exact (fun K => verifier_aborts K). Qed.
Print Assumptions C207_verifier_aborts.
Example C207_nonvacuous : match create_domain 5 (m97 28) 4 with
  | Some d => map (fun x => match evaluate_h 3 d sys97 1 ch97 (m97 5) (m97 x) (map (fun wit => evaluations_at (m97 22) 4 1 sigmas97 wit (m97 x)) [wit97]) with None => true | Some _ => false end) [1; 22; 96; 75; 7; 2]%Z =
              [true; true; true; true; false; false]
  | None => False end.
Proof. vm_compute. reflexivity. Qed.

(** ** C208: the column of the vendor PSE is not the circuit's. What one wants: at each point x of the coset the column holds the value at x of the gates' combination, as C204 says for the other vendor. But rows are taken modulo n while the
    columns are those of the extended domain. The circuit has one gate and no permutation or lookups, and it is satisfied. *)
Theorem C208_pse_column_refuted : exists (K : fld) (adicity : nat) (root : K) (k e : nat) (d ext : domain K) (it : item K) (gate : expr K) (ch : challenges K) (zeta : K) (polys : table K) (column : list K) (p : nat),
  primitive_root root (2 ^ adicity) /\ k <= e <= adicity /\ radix2_domain adicity root k 1%fld d /\ radix2_domain adicity root e 1%fld ext /\ complete_item true false e (generator adicity root e) it /\
  (zeta * zeta * zeta = 1)%fld /\ zeta <> 1%fld /\ e = compute_extended_k {| sys_gates := [gate]; sys_columns := []; sys_lookups := []; sys_minimum := 1 |} k /\ in_table polys (2 ^ k) gate /\
  (forall j, j < 2 ^ k -> value (leaves_at (generator adicity root k) (2 ^ k) polys (generator adicity root k ^ j)%fld) gate = 0%fld) /\
  build_extended_circuit_column_pse 3 backwards d ext it [gate] ch zeta [polys] = Some column /\ p < 2 ^ e /\
  nth p column 0%fld <> value (leaves_at (generator adicity root k) (2 ^ k) polys (zeta * generator adicity root e ^ p)%fld) gate.
Proof. exact pse_wrong. Qed.
Print Assumptions C208_pse_column_refuted.
Example C208_nonvacuous : match create_domain 5 (m97 28) 4, create_domain 5 (m97 28) 8 with
  | Some d, Some ext => match build_item true 3 backwards ext false with
                        | Some it => option_map (map (zval 97)) (build_extended_circuit_column_pse 3 backwards d ext it [EAdvice 0 0] ch97 (m97 35) [{| t_fixed := []; t_advice := [[0%fld; 1%fld]]; t_instance := []; t_challenges := [] |}]) =
                                     Some [35; 9; 91; 4; 35; 9; 91; 4]%Z
                        | None => False end
  | _, _ => False end.
Proof. vm_compute. reflexivity. Qed.

(** ** C209: Lagrange coefficients of a range that wraps around. For a range of at most n positions from any, also negative, position the coefficients are those of the positions modulo n, for every tau: inside or outside the coset. *)
Theorem C209_lagrange_wrap : forall (K : fld) (threads : Z) (d : domain K) (adicity : nat) (root : K) (k : nat) (h tau : K) (from : Z) (size : nat),
  adicity < 62 -> primitive_root root (2 ^ adicity) -> k <= adicity -> radix2_domain adicity root k h d -> (0 < threads < 128)%Z -> size <= 2 ^ k -> (Z.abs from < 2 ^ 62)%Z ->
  partial_lagrange threads d tau from size =
  Some (map (fun i => lagrange_basis (coset_points h (generator adicity root k) (2 ^ k)) tau (Z.to_nat ((from + Z.of_nat i) mod Z.of_nat (2 ^ k)))) (seq 0 size)).
Proof. exact (fun K => lagrange_wrap K). Qed.
Print Assumptions C209_lagrange_wrap.
Example C209_nonvacuous : match create_domain 5 (m97 28) 4 with
  | Some d => option_map (map (zval 97)) (partial_lagrange 3 d (m97 7) (-2) 3) = Some (map (fun i => zval 97 (lagrange_basis (coset_points 1%fld (m97 22) 4) (m97 7) i)) [2; 3; 0]) /\
              option_map (map (zval 97)) (partial_lagrange 3 d (m97 22) (-3) 4) = Some [1; 0; 0; 0]%Z
  | None => False end.
Proof. vm_compute. auto. Qed.
