(** Model of crypto/commitments/kzg (KZG, GWC, SHPlonk) and of crypto/commitments/polynomial_openings.h. Only definitions.
    [None] is a CHECK failure, a failed unwrap() or an index outside a container; an inner [None] or [false] is a return of
    false. The CPU paths. As in GrothModel.v the groups are abstract and the pairing is any bilinear map. The transcript is
    replaced by its challenges as arguments and by the list of the points of the proof. base::Ref compares addresses: a
    reference is a number, and [polys] or [comms] says what is stored there. *)
From Coq Require Import ZArith List Bool Arith.
From Verif Require Import Field SemigroupModel PolyModel FFTModel DomainModel GrothModel.
Import ListNotations.
Open Scope fld_scope.

Section Kzg.
  Context {K : fld} {G1 G2 GT : group K}.

  (** kzg.h:319-320, the data members without the batch. *)
  Record kzg := mk_kzg { k_powers : list G1; k_lagrange : list G1 }.
  (** affine_point.h:183-207 DoBatchMapScalarFieldToPoint into a vector of [size] points. *)
  Definition batch_map (g : G1) (scalars : list K) (size : nat) : option (list G1) :=
    if Nat.eqb (length scalars) size then Some (fixed_base g scalars) else None.
  (** kzg.h:177-211 UnsafeSetup; the members after a return of false are not modelled. *)
  Definition unsafe_setup (threads : Z) (adicity : nat) (root : K) (g1 : G1) (size : nat) (tau : K) : option (option kzg) :=
    match get_successive_powers 1 fmul (fun y => y * y) (fun x : K => feqb x 1) threads 0 size tau 1 with
    | None => None
    | Some powers =>
        match batch_map g1 powers size with
        | None => Some None
        | Some powers =>
            match create_domain adicity root size with
            | None => None
            | Some d =>
                match all_lagrange threads d tau with
                | None => None
                | Some coeffs => Some (option_map (mk_kzg powers) (batch_map g1 coeffs size))
                end
            end
        end
    end.
  (** kzg.h:171 N. *)
  Definition k_size (k : kzg) : nat := length (k_powers k).
  (** kzg.h:214-219 Downsize. *)
  Definition downsize (k : kzg) (n : nat) : kzg * bool :=
    if Nat.leb (k_size k) n then (k, false) else (mk_kzg (firstn n (k_powers k)) (firstn n (k_lagrange k)), true).
  (** kzg.h:273-301 DoMSM, 304-317 the batch variant: the first min(bases, scalars) bases. *)
  Definition do_msm (bases : list G1) (scalars : list K) : option G1 :=
    msm_run (firstn (Nat.min (length bases) (length scalars)) bases) scalars.
  (** kzg.h:222-229 Commit, 243-251 CommitLagrange. *)
  Definition commit (k : kzg) (v : list K) : option G1 := do_msm (k_powers k) v.
  Definition commit_lagrange (k : kzg) (v : list K) : option G1 := do_msm (k_lagrange k) v.

  (** gwc.h:242-243, shplonk.h:374-375: s_g2_ and the two elements of g2_arr_. *)
  Record pcs := mk_pcs { p_kzg : kzg; p_s_g2 : G2; p_arr0 : G2; p_arr1 : G2 }.
  (** kzg_family.h:37-39 DoUnsafeSetup with gwc.h:232-240 or shplonk.h:366-372 DoUnsafeSetupWithTau. *)
  Definition pcs_setup (threads : Z) (adicity : nat) (root : K) (g1 : G1) (g2 : G2) (size : nat) (tau : K) : option (option pcs) :=
    option_map (option_map (fun k => mk_pcs k (tau ** g2)%grp (tau ** g2)%grp (- g2)%grp)) (unsafe_setup threads adicity root g1 size tau).
  (** gwc.h:55-59, shplonk.h:56-60: the constructor from a KZG and s_g2; moving a point leaves it as it was. *)
  Definition pcs_of_parts (g2 : G2) (k : kzg) (s_g2 : G2) : pcs := mk_pcs k s_g2 g2 (- s_g2)%grp.
  (** gwc.h:270-283 ReadFrom of what WriteTo wrote, shplonk.h:402-415. *)
  Definition pcs_reload (g2 : G2) (p : pcs) : pcs := pcs_of_parts g2 (p_kzg p) (p_s_g2 p).

  (** ** polynomial_openings.h *)
  (** :25-47 PolynomialOpening, 82-94 PolynomialOpenings, 105-119 GroupedPolynomialOpenings. *)
  Record opening := mk_opening { o_ref : nat; o_point : K; o_value : K }.
  Record grouped := mk_grouped { g_polys : list (nat * list K); g_points : list K }.

  (** std::find_if over a vector; what is found is updated, otherwise an element is pushed back. *)
  Fixpoint upsert {A : Type} (test : A -> bool) (update : A -> A) (fresh : A) (l : list A) : list A :=
    match l with
    | [] => [fresh]
    | a :: r => if test a then update a :: r else a :: upsert test update fresh r
    end.
  (** points[0] == point; every group made here has a point. *)
  Definition at_point (x : K) (g : grouped) : bool := match g_points g with [] => false | p :: _ => feqb p x end.
  (** :191-213 GroupBySinglePoint. *)
  Definition single_step (gs : list grouped) (o : opening) : list grouped :=
    upsert (at_point (o_point o)) (fun g => mk_grouped (g_polys g ++ [(o_ref o, [o_value o])]) (g_points g))
      (mk_grouped [(o_ref o, [o_value o])] [o_point o]) gs.
  Definition group_by_single_point (os : list opening) : list grouped := fold_left single_step os [].

  (** absl::btree_set: an ordered list; [ltb] is operator< on field elements. *)
  Section Set_.
    Variable ltb : K -> K -> bool.
    Fixpoint set_insert (x : K) (l : list K) : list K :=
      match l with
      | [] => [x]
      | y :: r => if ltb x y then x :: l else if ltb y x then y :: set_insert x r else l
      end.
    (** :195, 256: super_point_set_. *)
    Definition super_points (os : list opening) : list K := fold_left (fun s o => set_insert (o_point o) s) os [].
    (** :250-276 GroupByPolyOracle. *)
    Definition oracle_step (gs : list (nat * list K)) (o : opening) : list (nat * list K) :=
      upsert (fun g => Nat.eqb (fst g) (o_ref o)) (fun g => (fst g, set_insert (o_point o) (snd g))) (o_ref o, set_insert (o_point o) []) gs.
    Definition group_by_oracle (os : list opening) : list (nat * list K) := fold_left oracle_step os [].
    (** operator== of two sets. *)
    Fixpoint set_eqb (a b : list K) : bool :=
      match a, b with
      | [], [] => true
      | x :: a, y :: b => feqb x y && set_eqb a b
      | _, _ => false
      end.
    (** :283-306 GroupByPoints. *)
    Definition points_step (gs : list (list K * list nat)) (p : nat * list K) : list (list K * list nat) :=
      upsert (fun g => set_eqb (fst g) (snd p)) (fun g => (fst g, snd g ++ [fst p])) (snd p, [fst p]) gs.
    Definition group_by_points (ps : list (nat * list K)) : list (list K * list nat) := fold_left points_step ps [].
    (** :335-348 GetOpeningFromPolyOpenings. *)
    Definition get_opening (os : list opening) (ref : nat) (x : K) : option K :=
      option_map o_value (find (fun o => Nat.eqb (o_ref o) ref && feqb (o_point o) x) os).
    (** :308-333 CreateMultiPolynomialOpenings. *)
    Definition create_multi (os : list opening) (g : list K * list nat) : option grouped :=
      option_map (fun ps => mk_grouped ps (fst g))
        (all_some (map (fun ref => option_map (pair ref) (all_some (map (get_opening os ref) (fst g)))) (snd g))).
    (** :216-240 GroupByPolyOracleAndPoints. *)
    Definition group_by_oracle_and_points (os : list opening) : option (list grouped) :=
      all_some (map (create_multi os) (group_by_points (group_by_oracle os))).
  End Set_.

  (** semigroups.h:515-541 LinearCombinationInPlace<false>: of polynomials, by their operators, and of points. *)
  Definition lc_polys (values : list (list K)) (r : K) : option (list K) :=
    match rev values with
    | [] => None
    | l :: rest => Some (fold_left (fun acc x => dense_add_in_place (dense_mul_scalar_in_place acc r) x) rest l)
    end.
  Definition lc_points (values : list G1) (r : K) : option G1 :=
    match rev values with
    | [] => None
    | l :: rest => Some (fold_left (fun acc x => (r ** acc + x)%grp) rest l)
    end.

  Section Prover.
    (** MaxDegree and the number of threads. *)
    Variables md threads : Z.
    Variable polys : nat -> list K.
    (** :143-152 CreateLowDegreeExtensions. *)
    Definition low_degree_extensions (g : grouped) : option (list (list K)) :=
      all_some (map (fun p => match lagrange_interpolate md threads (g_points g) (snd p) with Some (Some l) => Some l | _ => None end) (g_polys g)).
    (** :154-174 CombineLowDegreeExtensions. *)
    Definition combine_extensions (g : grouped) (r : K) (ldes : list (list K)) : option (list K) :=
      match all_some (map (fun pl => dense_sub md (polys (fst (fst pl))) (snd pl)) (combine (g_polys g) ldes)) with
      | None => None
      | Some numerators =>
          match lc_polys numerators r, from_roots (g_points g) with
          | Some n, Some vanishing => match dense_div md n vanishing with Some (Some w) => Some w | _ => None end
          | _, _ => None
          end
      end.
    (** :124-128 CreateCombinedLowDegreeExtensions. *)
    Definition combined (g : grouped) (r : K) : option (list (list K) * list K) :=
      match low_degree_extensions g with
      | None => None
      | Some ldes => option_map (pair ldes) (combine_extensions g r ldes)
      end.
  End Prover.

  (** ** GWC *)
  (** batch_commitment_state.h:12-24 and cpu_batch_commitments_. *)
  Record batch := mk_batch { b_count : nat; b_buffer : list G1 }.
  Definition no_batch : batch := mk_batch 0 [].
  (** vector_commitment_scheme.h:36-44 SetBatchMode, kzg.h:116-126 ResizeBatchCommitments. *)
  Definition set_batch_mode (b : batch) (n : nat) : option batch :=
    if Nat.eqb n 0 then Some b
    else if Nat.eqb (b_count b) 0 then Some (mk_batch n (firstn n (b_buffer b) ++ repeat gzero (n - length (b_buffer b))))
    else None.
  Fixpoint store {A : Type} (l : list A) (i : nat) (x : A) : option (list A) :=
    match l, i with
    | [], _ => None
    | _ :: r, O => Some (x :: r)
    | a :: r, S i => option_map (cons a) (store r i x)
    end.
  (** gwc.h:102-114: W_i for every group from the [i]-th on, and Commit(w, i). *)
  Fixpoint commit_groups (md threads : Z) (polys : nat -> list K) (k : kzg) (b : batch) (v : K) (i : nat) (gs : list grouped) : option (batch * bool) :=
    match gs with
    | [] => Some (b, true)
    | g :: gs =>
        match combined md threads polys g v with
        | None => None
        | Some (_, w) =>
            match commit k w with
            | None => Some (b, false)
            | Some c =>
                match store (b_buffer b) i c with
                | None => None
                | Some buffer => commit_groups md threads polys k (mk_batch (b_count b) buffer) v (S i) gs
                end
            end
        end
    end.
  (** gwc.h:83-122 DoCreateOpeningProof; kzg.h:128-169 GetBatchCommitments resets the batch. *)
  Definition gwc_prove (md threads : Z) (p : pcs) (b : batch) (polys : nat -> list K) (os : list opening) (v : K) : option (batch * option (list G1)) :=
    let gs := group_by_single_point os in
    match set_batch_mode b (length gs) with
    | None => None
    | Some b =>
        match commit_groups md threads polys (p_kzg p) b v 0 gs with
        | None => None
        | Some (b, false) => Some (b, None)
        | Some (b, true) => Some (no_batch, Some (b_buffer b))
        end
    end.
  (** gwc.h:163-184: opening_batch and commitment_batch of a group, from the last polynomial to the first. *)
  Definition batch_step (comms : nat -> G1) (v : K) (acc : K * G1) (p : nat * list K) : K * G1 :=
    (fst acc * v + nth 0 (snd p) 0, (v ** snd acc + comms (fst p))%grp).
  Definition opening_batch (comms : nat -> G1) (v : K) (g : grouped) : K * G1 :=
    fold_left (batch_step comms v) (rev (g_polys g)) (0, gzero).
  (** gwc.h:157-212, the loop over the groups with their commitments W_i. *)
  Record gwc_state := mk_gs { s_opening : K; s_commitment : G1; s_aux : G1; s_witness : G1; s_power : K }.
  Definition gwc_step (comms : nat -> G1) (v u : K) (s : gwc_state) (gw : grouped * G1) : gwc_state :=
    let '(ob, cb) := opening_batch comms v (fst gw) in
    mk_gs (s_opening s + ob * s_power s) (s_commitment s + s_power s ** cb)%grp
      (s_aux s + (s_power s * nth 0 (g_points (fst gw)) 0) ** snd gw)%grp (s_witness s + s_power s ** snd gw)%grp (s_power s * u).
  (** gwc.h:124-229 DoVerifyOpeningProof: [proof] is what can be read from the transcript. *)
  Definition gwc_verify (e : pairing G1 G2 GT) (g1 : G1) (p : pcs) (comms : nat -> G1) (os : list opening) (v : K) (proof : list G1) (u : K) : bool :=
    let gs := group_by_single_point os in
    if Nat.ltb (length proof) (length gs) then false
    else
      let s := fold_left (gwc_step comms v u) (combine gs proof) (mk_gs 0 gzero gzero gzero 1) in
      gt_eqb e (e (s_witness s) (p_arr0 p) + e (s_aux s + s_commitment s + - (s_opening s ** g1))%grp (p_arr1 p))%grp gzero.

  (** ** SHPlonk *)
  (** shplonk.h:147-154, 284-290: the points of the other groups; base::Contains. *)
  Definition diffs (super points : list K) : list K := filter (fun x => negb (existsb (fun y => feqb y x) points)) super.
  (** shplonk.h:168-181: P - R(u). *)
  Definition minus_constant (md : Z) (p : list K) (c : K) : option (list K) :=
    match p with
    | [] => dense_make md true [- c]
    | p0 :: ps => Some ((p0 - c) :: ps)
    end.
  (** shplonk.h:141-192: L_i and the value of the vanishing polynomial of the other points. *)
  Definition l_poly (md threads : Z) (polys : nat -> list K) (super : list K) (y u : K) (g : grouped) (ldes : list (list K)) : option (K * list K) :=
    let z_diff := vanishing_by_roots threads (diffs super (g_points g)) u in
    match all_some (map (fun pl => minus_constant md (polys (fst (fst pl))) (dense_evaluate threads (snd pl) u)) (combine (g_polys g) ldes)) with
    | None => None
    | Some ps =>
        match lc_polys ps y with
        | None => None
        | Some l => option_map (pair z_diff) (dense_mul_scalar md l z_diff)
        end
    end.
  (** shplonk.h:84-226 DoCreateOpeningProof; the DCHECK of line 211 is not compiled into release builds. *)
  Definition shplonk_prove (md threads : Z) (ltb : K -> K -> bool) (p : pcs) (polys : nat -> list K) (os : list opening) (y v u : K) : option (option (G1 * G1)) :=
    match group_by_oracle_and_points ltb os with
    | None => None
    | Some gs =>
        match all_some (map (fun g => combined md threads polys g y) gs) with
        | None => None
        | Some hs =>
            match lc_polys (map snd hs) v with
            | None => None
            | Some h_poly =>
                match commit (p_kzg p) h_poly with
                | None => Some None
                | Some h =>
                    let super := super_points ltb os in
                    match all_some (map (fun gh => l_poly md threads polys super y u (fst gh) (fst (snd gh))) (combine gs hs)) with
                    | None => None
                    | Some ls =>
                        match lc_polys (map snd ls) v with
                        | None => None
                        | Some l =>
                            match dense_sub_in_place md l (dense_mul_scalar_in_place h_poly (vanishing_by_roots threads super u)), from_roots [u] with
                            | Some l, Some vanishing =>
                                match dense_div md l vanishing with
                                | Some (Some q_poly) =>
                                    match dense_div_scalar_in_place q_poly (fst (hd (0, []) ls)) with
                                    | None => None
                                    | Some q_poly =>
                                        match commit (p_kzg p) q_poly with
                                        | None => Some None
                                        | Some q => Some (Some (h, q))
                                        end
                                    end
                                | _ => None
                                end
                            | _, _ => None
                            end
                        end
                    end
                end
            end
        end
    end.
  (** shplonk.h:310-332: a group's commitment C_0 - [R_0(u)] + y (C_1 - [R_1(u)]) + ... *)
  Definition l_commitment (md threads : Z) (g1 : G1) (comms : nat -> G1) (y u : K) (g : grouped) : option G1 :=
    match low_degree_extensions md threads g with
    | None => None
    | Some ldes =>
        Some (fold_left (fun acc pl => (y ** acc + (comms (fst (fst pl)) + - (dense_evaluate threads (snd pl) u ** g1)))%grp)
                (rev (combine (g_polys g) ldes)) gzero)
    end.
  (** shplonk.h:265-342, the loop over the groups after the first, with the inverse of the first one's value. *)
  Fixpoint normalized (md threads : Z) (g1 : G1) (comms : nat -> G1) (super : list K) (y u inverse : K) (gs : list grouped) : option (list G1) :=
    match gs with
    | [] => Some []
    | g :: gs =>
        match l_commitment md threads g1 comms y u g with
        | None => None
        | Some l => option_map (cons ((vanishing_by_roots threads (diffs super (g_points g)) u * inverse) ** l)%grp)
                      (normalized md threads g1 comms super y u inverse gs)
        end
    end.
  (** shplonk.h:228-363 DoVerifyOpeningProof. LinearCombinationInPlace aborts without groups. *)
  Definition shplonk_verify (md threads : Z) (ltb : K -> K -> bool) (e : pairing G1 G2 GT) (g1 : G1) (p : pcs) (comms : nat -> G1) (os : list opening)
    (y v : K) (h : G1) (u : K) (q : G1) : option bool :=
    match group_by_oracle_and_points ltb os with
    | None => None
    | Some [] => None
    | Some (g :: gs) =>
        let super := super_points ltb os in
        let z_diff := vanishing_by_roots threads (diffs super (g_points g)) u in
        let first_z := vanishing_by_roots threads (g_points g) u in
        if feqb z_diff 0 then None
        else match l_commitment md threads g1 comms y u g, normalized md threads g1 comms super y u (finv z_diff) gs with
             | Some l0, Some ls =>
                 match lc_points ((1 ** l0)%grp :: ls) v with
                 | None => None
                 | Some p0 =>
                     let pp := (p0 + - (first_z ** h) + u ** q)%grp in
                     Some (gt_eqb e (e q (p_arr0 p) + e pp (p_arr1 p))%grp gzero)
                 end
             | _, _ => None
             end
    end.
End Kzg.
Arguments kzg {K}. Arguments pcs {K}. Arguments batch {K}. Arguments opening : clear implicits. Arguments grouped : clear implicits.
