(** KZG, GWC and SHPlonk: what a user of crypto/commitments/kzg relies on. KzgSpec.v defines [set_up] (the powers of a secret and the verifier's two points), [committed]
    (the commitments p(tau) g1), [holds] (a claimed value is right), [fit] (polynomials without a zero at the end and of at most n coefficients), [first_claim] and [orders]. *)
From Coq Require Import ZArith List Bool Arith Lia Sorted.
From Verif Require Import Field Zp PolySpec FFTSpec CosetProps GrothModel GrothInst GrothProps KzgModel KzgSpec KzgProof4 KzgProof5 KzgExtra.
Import ListNotations.
Open Scope nat_scope.

(** Setup for a power of two: Commit of at most that many coefficients is p(tau) g1, CommitLagrange of the values on the domain is the same point, longer vectors are refused. Setup returns false
    for other sizes the field has a domain for, and aborts for larger ones. *)
Theorem C148_setup : forall (K : fld) (G1 G2 : group K) (threads : Z) (adicity : nat) (root : K) (g1 : G1) (g2 : G2) (tau : K),
  (0 < threads < 128)%Z -> adicity < 62 -> primitive_root root (2 ^ adicity) ->
  (forall k, k <= adicity -> exists p, pcs_setup threads adicity root g1 g2 (2 ^ k) tau = Some (Some p) /\ set_up p g1 g2 tau (2 ^ k) /\ p_s_g2 p = (tau ** g2)%grp /\
     k_size (p_kzg p) = 2 ^ k /\
     (forall v, length v <= 2 ^ k -> commit (p_kzg p) v = Some (eval v tau ** g1)%grp) /\
     (forall v, 2 ^ k < length v -> commit (p_kzg p) v = None /\ commit_lagrange (p_kzg p) v = None) /\
     (forall f, length f <= 2 ^ k -> commit_lagrange (p_kzg p) (values_on f 1%fld (generator adicity root k) (2 ^ k)) = Some (eval f tau ** g1)%grp)) /\
  (forall n, n <= 2 ^ adicity -> (forall k, n <> 2 ^ k) -> pcs_setup threads adicity root g1 g2 n tau = Some None) /\
  (forall n, 2 ^ adicity < n -> (Z.of_nat n <= 2 ^ 62)%Z -> pcs_setup threads adicity root g1 g2 n tau = None).
Proof. exact setup_commits. Qed.
Print Assumptions C148_setup.
(** Over F13 with four points. *)
Definition el13 (z : Z) : F13 := g13 z.
Definition setup13 (n : nat) (tau : Z) : option (option (pcs S13 S13)) := pcs_setup 3 2 (g13 8) (g13 2 : S13) (g13 6 : S13) n (g13 tau).
Definition val13 (c : option S13) : option Z := option_map (fun c : F13 => zval 13 c) c.
Lemma val13_inj (a b : option S13) : val13 a = val13 b -> a = b.
Proof. destruct a as [a|], b as [b|]; cbn; intros H; [|discriminate H..|reflexivity]. injection H as H. f_equal. apply zp_eq. exact H. Qed.
Definition with13 {A} (d : A) (n : nat) (tau : Z) (f : pcs S13 S13 -> A) : A := match setup13 n tau with Some (Some p) => f p | _ => d end.
Example C148_nonvacuous : primitive_root (g13 8) (2 ^ 2) /\
  with13 None 4 7 (fun p => val13 (commit (p_kzg p) [g13 1; g13 2; g13 3])) = Some 12%Z /\
  map (zval 13) (values_on [g13 1; g13 2; g13 3] 1%fld (g13 8) 4) = [6; 1; 2; 8]%Z /\
  with13 None 4 7 (fun p => val13 (commit_lagrange (p_kzg p) (map el13 [6; 1; 2; 8]%Z))) = Some 12%Z /\
  with13 None 4 7 (fun p => val13 (commit (p_kzg p) (map el13 [1; 2; 3; 4; 5]%Z))) = None /\ setup13 3 7 = Some None /\ setup13 5 7 = None.
Proof. split; [exact root13|]. repeat split; vm_compute; reflexivity. Qed.

(** Binding: two vectors of at most n coefficients with the same commitment for n secrets are the same polynomial. *)
Theorem C149_binding : forall (K : fld) (G1 : group K) (g1 : G1) (n : nat) (v w St : list K), g1 <> gzero -> NoDup St -> n <= length St -> length v <= n -> length w <= n ->
  (forall tau, In tau St -> exists k : kzg G1, powers_at k g1 tau n /\ commit k v = commit k w) -> forall i, coeff v i = coeff w i.
Proof. exact binding. Qed.
Print Assumptions C149_binding.
Example C149_nonvacuous : NoDup (map el13 [3; 4]%Z) /\ (forall tau, In tau (map el13 [3; 4]%Z) -> exists k : kzg S13, powers_at k (g13 2 : S13) tau 2 /\ commit k [g13 5] = commit k [g13 5; g13 0]) /\
  exists k : kzg S13, powers_at k (g13 2 : S13) (g13 3) 2 /\ commit k [g13 5; g13 1] = commit k [g13 8].
Proof.
  split; [apply (NoDup_map_inv (zval 13)); vm_compute; repeat constructor; cbn; intuition congruence|]. split.
  - intros tau Ht. exists (mk_kzg (map (fun i => (tau ^ i)%fld ** (g13 2 : S13))%grp (seq 0 2)) []). split; [reflexivity|]. destruct Ht as [<-|[<-|[]]]; apply val13_inj; vm_compute; reflexivity.
  - exists (mk_kzg (map (fun i => (g13 3 ^ i)%fld ** (g13 2 : S13))%grp (seq 0 2)) []). split; [reflexivity|]. apply val13_inj; vm_compute; reflexivity.
Qed.

(** Downsize: to a smaller size it succeeds and Commit works for vectors of that size; otherwise it returns false and changes nothing. *)
Theorem C150_downsize : forall (K : fld) (G1 : group K) (k : kzg G1) (g1 : G1) (tau : K) (n : nat), powers_at k g1 tau n ->
  (forall m, m < n -> exists k', downsize k m = (k', true) /\ k_size k' = m /\ forall v, (length v <= m -> commit k' v = Some (eval v tau ** g1)%grp) /\ (m < length v -> commit k' v = None)) /\
  (forall m, n <= m -> downsize k m = (k, false)).
Proof. exact downsize_commits. Qed.
Print Assumptions C150_downsize.
Example C150_nonvacuous : with13 None 4 7 (fun p => val13 (commit (fst (downsize (p_kzg p) 2)) [g13 1; g13 2])) = Some 4%Z /\ with13 true 4 7 (fun p => snd (downsize (p_kzg p) 4)) = false.
Proof. split; vm_compute; reflexivity. Qed.

(** CommitLagrange after Downsize: the full statement, that it still commits to the polynomial with the given values on the smaller domain, is false. *)
Theorem C151_downsize_lagrange_refuted : exists (p : pcs S13 S13) (k' : kzg S13) (f : list F13) (c c' : S13), pcs_setup 3 2 (g13 8) (g13 2 : S13) (g13 6 : S13) 4 (g13 7) = Some (Some p) /\
  downsize (p_kzg p) 2 = (k', true) /\ length f = 2 /\ commit k' f = Some c /\ commit_lagrange k' (values_on f 1%fld (generator 2 (g13 8) 1) 2) = Some c' /\ c <> c'.
Proof.
  assert (H : with13 false 4 7 (fun p => match downsize (p_kzg p) 2 with
    | (k', true) => match commit k' [g13 1; g13 2], commit_lagrange k' (values_on [g13 1; g13 2] 1%fld (generator 2 (g13 8) 1) 2) with Some c, Some c' => negb (Z.eqb (zval 13 c) (zval 13 c')) | _, _ => false end
    | _ => false end) = true) by (vm_compute; reflexivity).
  unfold with13 in H. destruct (setup13 4 7) as [[p|]|] eqn:E; [|discriminate H..]. destruct (downsize (p_kzg p) 2) as [k' [|]] eqn:D; [|discriminate H].
  destruct (commit k' [g13 1; g13 2]) as [c|] eqn:C; [|discriminate H]. destruct (commit_lagrange k' _) as [c'|] eqn:C'; [|discriminate H].
  exists p, k', [g13 1; g13 2], c, c'. split; [exact E|]. split; [exact D|]. split; [reflexivity|]. split; [exact C|]. split; [exact C'|]. intros ->. rewrite Z.eqb_refl in H. discriminate H.
Qed.
Print Assumptions C151_downsize_lagrange_refuted.

(** A scheme written to a buffer and read back verifies what the original verifies: false. The verifier that was read back accepts, for every polynomial, every claimed value at the point 0,
    with a proof that anyone can compute from the public powers ... *)
Theorem C152_reload_forgery_refuted : forall (K : fld) (G1 G2 GT : group K) (e : pairing G1 G2 GT) (g1 : G1) (g2 : G2) (p : pcs G1 G2) (tau : K) (n : nat) (polys : nat -> list K) (r : nat) (y v u : K),
  set_up p g1 g2 tau n -> p_s_g2 p = (tau ** g2)%grp -> Nat.max (length (polys r)) 1 < n ->
  exists forged W, forged = 0%fld :: match polys r with [] => [(- y)%fld] | c :: cs => (c - y)%fld :: cs end /\ commit (p_kzg p) forged = Some W /\
    gwc_verify e g1 (pcs_reload g2 p) (committed polys tau g1) [mk_opening r 0%fld y] v [W] u = true.
Proof. exact reload_forgery. Qed.
Print Assumptions C152_reload_forgery_refuted.
Definition polys13 (r : nat) : list F13 := match r with 0 => map el13 [1; 2; 3]%Z | _ => map el13 [5; 0; 0; 1]%Z end.
Definition claim13 (r : nat) (x y : Z) : opening F13 := mk_opening r (g13 x) (g13 y).
(** The prover and the verifier of GWC; the verifier may have been read back. *)
Definition gwc13 (reloaded : bool) (tau : Z) (os : list (opening F13)) (v u : Z) : option bool :=
  with13 None 4 tau (fun p => match gwc_prove 5 3 p no_batch polys13 os (g13 v) with
    | Some (_, Some proof) => Some (gwc_verify e13 (g13 2 : S13) (if reloaded then pcs_reload (g13 6 : S13) p else p) (committed polys13 (g13 tau) (g13 2 : S13)) os (g13 v) proof (g13 u))
    | _ => None end).
Definition ltb13 (a b : F13) : bool := Z.ltb (zval 13 a) (zval 13 b).
Definition shplonk13 (reloaded : bool) (tau : Z) (os : list (opening F13)) (y v u : Z) : option bool :=
  with13 None 4 tau (fun p => match shplonk_prove 5 3 ltb13 p polys13 os (g13 y) (g13 v) (g13 u) with
    | Some (Some (h, q)) => shplonk_verify 5 3 ltb13 e13 (g13 2 : S13) (if reloaded then pcs_reload (g13 6 : S13) p else p) (committed polys13 (g13 tau) (g13 2 : S13)) os (g13 y) (g13 v) h (g13 u) q
    | _ => None end).
Definition claims13 : list (opening F13) := [claim13 0 3 8; claim13 1 3 6; claim13 0 5 8].
(** ... and rejects honest proofs. *)
Theorem C152_reload_rejects_refuted : exists (os : list (opening F13)) (v u : Z), (forall o, In o os -> holds polys13 o) /\ gwc13 false 7 os v u = Some true /\ gwc13 true 7 os v u = Some false /\
  shplonk13 false 7 os 4 v u = Some true /\ shplonk13 true 7 os 4 v u = Some false.
Proof.
  exists claims13, 2%Z, 9%Z. split; [|repeat split; vm_compute; reflexivity].
  intros o [<-|[<-|[<-|[]]]]; unfold holds; apply zp_eq; vm_compute; reflexivity.
Qed.
Print Assumptions C152_reload_rejects_refuted.
Example C152_nonvacuous : with13 False 4 7 (fun p => set_up p (g13 2 : S13) (g13 6 : S13) (g13 7) 4 /\ p_s_g2 p = ((g13 7) ** (g13 6 : S13))%grp).
Proof.
  destruct (C148_setup F13 S13 S13 3 2 (g13 8) (g13 2 : S13) (g13 6 : S13) (g13 7) ltac:(lia) ltac:(lia) root13) as (H & _). destruct (H 2 ltac:(lia)) as (p & E & S & E2 & _).
  unfold with13, setup13. change 4 with (2 ^ 2) at 1. rewrite E. exact (conj S E2).
Qed.

(** GWC is complete: for true claims the prover returns a proof and resets its batch, and the verifier accepts it for every challenge, whatever follows it in the transcript. *)
Theorem C153_gwc_complete : forall (K : fld) (G1 G2 GT : group K) (e : pairing G1 G2 GT) (g1 : G1) (g2 : G2) (p : pcs G1 G2) (tau : K) (n : nat) (md threads : Z) (polys : nat -> list K)
  (os : list (opening K)) (v : K),
  (0 < threads < 128)%Z -> (0 <= md < 2 ^ 62)%Z -> (Z.of_nat n <= md + 1)%Z -> set_up p g1 g2 tau n -> fit polys os n -> (forall o, In o os -> holds polys o) ->
  exists proof, gwc_prove md threads p no_batch polys os v = Some (no_batch, Some proof) /\ forall rest u, gwc_verify e g1 p (committed polys tau g1) os v (proof ++ rest) u = true.
Proof. exact gwc_completeness. Qed.
Print Assumptions C153_gwc_complete.
Lemma claims13_true : forall o, In o claims13 -> holds polys13 o.
Proof. intros o [<-|[<-|[<-|[]]]]; unfold holds; apply zp_eq; vm_compute; reflexivity. Qed.
Lemma nonzero13 n : zval 13 (g13 n) <> 0%Z -> g13 n <> (0%fld : F13).
Proof. intros H E. apply H. rewrite E. reflexivity. Qed.
Lemma claims13_fit : fit polys13 claims13 4.
Proof. intros o [<-|[<-|[<-|[]]]]; cbn [claim13 o_ref polys13]; (split; [unfold canonical; cbn [map last]; apply nonzero13; vm_compute; discriminate|cbn; lia]). Qed.
Example C153_nonvacuous : fit polys13 claims13 4 /\ (forall o, In o claims13 -> holds polys13 o) /\ gwc13 false 7 claims13 2 9 = Some true /\ gwc13 false 7 [claim13 0 3 8; claim13 1 3 7; claim13 0 5 8] 2 9 <> Some true.
Proof. split; [exact claims13_fit|]. split; [exact claims13_true|]. split; [vm_compute; reflexivity|]. vm_compute. discriminate. Qed.

(** GWC is sound against provers whose points are combinations of the powers: a prover that answers enough challenges v with one vector of polynomials that passes for enough challenges u and
    secrets makes only true claims. *)
Theorem C154_gwc_sound : forall (K : fld) (G1 G2 GT : group K) (e : pairing G1 G2 GT) (g1 : G1) (g2 : G2) (polys : nat -> list K) (os : list (opening K)) (N : nat) (Sv Su St : list K),
  e g1 g2 <> gzero -> NoDup Sv -> NoDup Su -> NoDup St -> length os <= length Sv -> length os <= length Su -> N < length St ->
  (forall o, In o os -> length (polys (o_ref o)) <= N) ->
  (forall v, In v Sv -> exists ws : list (list K), (forall w, In w ws -> length w <= N) /\
     forall u tau, In u Su -> In tau St -> exists p : pcs G1 G2, set_up p g1 g2 tau N /\
       gwc_verify e g1 p (committed polys tau g1) os v (map (fun w => (eval w tau ** g1)%grp) ws) u = true) ->
  forall o, In o os -> holds polys o.
Proof. exact (@gwc_sound_lemma). Qed.
Print Assumptions C154_gwc_sound.
Definition p13 (tau : F13) : pcs S13 S13 :=
  mk_pcs (mk_kzg (map (fun i => ((tau ^ i)%fld ** (g13 2 : S13))%grp) (seq 0 2)) []) (tau ** (g13 6 : S13))%grp (tau ** (g13 6 : S13))%grp (- (g13 6 : S13))%grp.
Definition line13 (_ : nat) : list F13 := [g13 1; g13 2].
Lemma nodup13 (l : list Z) : NoDup (map (fun z => zval 13 (el13 z)) l) -> NoDup (map el13 l).
Proof. intros H. apply (NoDup_map_inv (zval 13)). rewrite map_map. exact H. Qed.
Example C154_nonvacuous : e13 (g13 2 : S13) (g13 6 : S13) <> gzero /\ NoDup (map el13 [3; 7; 9]%Z) /\
  (forall v, In v [g13 4] -> exists ws : list (list F13), (forall w, In w ws -> length w <= 2) /\
     forall u tau, In u [g13 5] -> In tau (map el13 [3; 7; 9]%Z) -> exists p : pcs S13 S13, set_up p (g13 2 : S13) (g13 6 : S13) tau 2 /\
       gwc_verify e13 (g13 2 : S13) p (committed line13 tau (g13 2 : S13)) [claim13 0 3 7] v (map (fun w => (eval w tau ** (g13 2 : S13))%grp) ws) u = true).
Proof.
  split; [apply (nonzero13 12); vm_compute; discriminate|]. split; [apply nodup13; vm_compute; repeat constructor; cbn; intuition congruence|].
  intros v [<-|[]]. exists [[g13 2]]. split; [intros w [<-|[]]; cbn; lia|]. intros u tau [<-|[]] Ht. exists (p13 tau). split; [split; [reflexivity|split; reflexivity]|].
  destruct Ht as [<-|[<-|[<-|[]]]]; vm_compute; reflexivity.
Qed.

(** SHPlonk is complete, if the challenge u is not a point at which only polynomials with other points than the first claim's are opened. *)
Theorem C155_shplonk_complete : forall (K : fld) (G1 G2 GT : group K) (e : pairing G1 G2 GT) (g1 : G1) (g2 : G2) (p : pcs G1 G2) (tau : K) (n : nat) (md threads : Z) (ltb : K -> K -> bool)
  (polys : nat -> list K) (o : opening K) (os : list (opening K)) (y v u : K),
  (0 < threads < 128)%Z -> (0 <= md < 2 ^ 62)%Z -> (Z.of_nat n <= md + 1)%Z -> orders ltb -> opened_at_most (o :: os) (md + 1) -> (Z.of_nat (length (o :: os)) < 2 ^ 61)%Z ->
  set_up p g1 g2 tau n -> fit polys (o :: os) n -> (forall o', In o' (o :: os) -> holds polys o') ->
  (forall o', In o' (o :: os) -> o_point o' = u -> exists o'', In o'' (o :: os) /\ o_ref o'' = o_ref o /\ o_point o'' = u) ->
  exists h q, shplonk_prove md threads ltb p polys (o :: os) y v u = Some (Some (h, q)) /\ shplonk_verify md threads ltb e g1 p (committed polys tau g1) (o :: os) y v h u q = Some true.
Proof. exact shplonk_completeness. Qed.
Print Assumptions C155_shplonk_complete.
(** For the other challenges the verifier aborts. *)
Theorem C155_shplonk_abort : forall (K : fld) (G1 G2 GT : group K) (e : pairing G1 G2 GT) (g1 : G1) (p : pcs G1 G2) (md threads : Z) (ltb : K -> K -> bool) (comms : nat -> G1)
  (o : opening K) (os : list (opening K)) (y v : K) (h : G1) (u : K) (q : G1),
  (0 < threads < 128)%Z -> orders ltb -> (Z.of_nat (length (o :: os)) < 2 ^ 61)%Z ->
  (exists o', In o' (o :: os) /\ o_point o' = u) -> (forall o', In o' (o :: os) -> o_ref o' = o_ref o -> o_point o' <> u) ->
  shplonk_verify md threads ltb e g1 p comms (o :: os) y v h u q = None.
Proof. exact shplonk_bad_challenge. Qed.
Print Assumptions C155_shplonk_abort.
Lemma ltb13_orders : orders ltb13.
Proof.
  unfold orders, ltb13. split; [intros x; apply Z.ltb_irrefl|]. split.
  - intros x y z. rewrite !Z.ltb_lt. apply Z.lt_trans.
  - intros x y H1 H2. apply Z.ltb_ge in H1. apply Z.ltb_ge in H2. apply zp_eq. apply Z.le_antisymm; assumption.
Qed.
Lemma few_points {K : fld} (os : list (opening K)) m : (Z.of_nat (length os) <= m)%Z -> opened_at_most os m.
Proof.
  intros H r xs Hn Hx. assert (L : length xs <= length (map o_point os)); [|rewrite map_length in L; lia].
  apply NoDup_incl_length; [exact Hn|]. intros x I. destruct (Hx x I) as (o & Io & _ & <-). apply in_map. exact Io.
Qed.
Example C155_nonvacuous : orders ltb13 /\ opened_at_most claims13 (5 + 1) /\ fit polys13 claims13 4 /\ (forall o, In o claims13 -> holds polys13 o) /\
  shplonk13 false 7 claims13 4 2 9 = Some true /\ shplonk13 false 7 claims13 4 2 3 = Some true /\ shplonk13 false 7 [claim13 0 3 8; claim13 1 3 7; claim13 0 5 8] 4 2 9 <> Some true /\
  shplonk13 false 7 [claim13 1 3 6; claim13 0 3 8; claim13 0 5 8] 4 2 5 = None.
Proof.
  split; [exact ltb13_orders|]. split; [apply few_points; cbn; lia|]. split; [exact claims13_fit|]. split; [exact claims13_true|].
  split; [vm_compute; reflexivity|]. split; [vm_compute; reflexivity|]. split; [vm_compute; discriminate|vm_compute; reflexivity].
Qed.

(** SHPlonk is sound against provers whose points are combinations of the powers: if they pass for enough challenges and secrets, the first claim about every polynomial and point is true. *)
Theorem C156_shplonk_sound : forall (K : fld) (G1 G2 GT : group K) (e : pairing G1 G2 GT) (g1 : G1) (g2 : G2) (md threads : Z) (ltb : K -> K -> bool) (os : list (opening K)),
  (0 < threads < 128)%Z -> (0 <= md < 2 ^ 62)%Z -> orders ltb -> opened_at_most os (md + 1) -> (Z.of_nat (length os) < 2 ^ 61)%Z ->
  forall (polys : nat -> list K) (N : nat) (Sy Sv Su St : list K), e g1 g2 <> gzero ->
  NoDup Sy -> NoDup Sv -> NoDup Su -> NoDup St -> length os <= length Sy -> length os <= length Sv -> length os + N <= length Su -> N < length St ->
  (forall o, In o os -> length (polys (o_ref o)) <= N) ->
  (forall y v, In y Sy -> In v Sv -> exists h : list K, length h <= N /\ forall u, In u Su -> exists q : list K, length q <= N /\ forall tau, In tau St ->
     exists p : pcs G1 G2, set_up p g1 g2 tau N /\
       shplonk_verify md threads ltb e g1 p (committed polys tau g1) os y v (eval h tau ** g1)%grp u (eval q tau ** g1)%grp = Some true) ->
  forall o, first_claim os o -> holds polys o.
Proof. exact (@shplonk_sound_lemma). Qed.
Print Assumptions C156_shplonk_sound.
Example C156_nonvacuous : opened_at_most [claim13 0 3 7] (5 + 1) /\ first_claim [claim13 0 3 7] (claim13 0 3 7) /\ NoDup (map el13 [3; 7; 9]%Z) /\
  (forall y v, In y [g13 4] -> In v [g13 6] -> exists h : list F13, length h <= 2 /\ forall u, In u (map el13 [3; 7; 9]%Z) -> exists q : list F13, length q <= 2 /\ forall tau, In tau (map el13 [3; 7; 9]%Z) ->
     exists p : pcs S13 S13, set_up p (g13 2 : S13) (g13 6 : S13) tau 2 /\
       shplonk_verify 5 3 ltb13 e13 (g13 2 : S13) p (committed line13 tau (g13 2 : S13)) [claim13 0 3 7] y v (eval h tau ** (g13 2 : S13))%grp u (eval q tau ** (g13 2 : S13))%grp = Some true).
Proof.
  split; [apply few_points; cbn; lia|]. split; [exists [], []; split; [reflexivity|intros o' []]|]. split; [apply nodup13; vm_compute; repeat constructor; cbn; intuition congruence|].
  intros y v [<-|[]] [<-|[]]. exists [g13 2]. split; [cbn; lia|]. intros u Hu. exists [g13 2]. split; [cbn; lia|]. intros tau Ht. exists (p13 tau). split; [split; [reflexivity|split; reflexivity]|].
  destruct Hu as [<-|[<-|[<-|[]]]]; destruct Ht as [<-|[<-|[<-|[]]]]; vm_compute; reflexivity.
Qed.

(** Every claim the verifier of SHPlonk is given is true: false; it does not look at a second claim about the same polynomial and point. *)
Theorem C157_second_claim_refuted : exists (p : pcs S13 S13) (os : list (opening F13)) (h q : S13), pcs_setup 3 2 (g13 8) (g13 2 : S13) (g13 6 : S13) 4 (g13 7) = Some (Some p) /\
  shplonk_verify 5 3 ltb13 e13 (g13 2 : S13) p (committed polys13 (g13 7) (g13 2 : S13)) os (g13 4) (g13 2) h (g13 9) q = Some true /\
  shplonk_prove 5 3 ltb13 p polys13 os (g13 4) (g13 2) (g13 9) = Some (Some (h, q)) /\ exists o, In o os /\ ~ holds polys13 o.
Proof.
  set (os := claims13 ++ [claim13 0 3 9]).
  assert (H : with13 None 4 7 (fun p => match shplonk_prove 5 3 ltb13 p polys13 os (g13 4) (g13 2) (g13 9) with
    | Some (Some (h, q)) => shplonk_verify 5 3 ltb13 e13 (g13 2 : S13) p (committed polys13 (g13 7) (g13 2 : S13)) os (g13 4) (g13 2) h (g13 9) q | _ => None end) = Some true) by (vm_compute; reflexivity).
  unfold with13 in H. destruct (setup13 4 7) as [[p|]|] eqn:E; [|discriminate H..]. destruct (shplonk_prove 5 3 ltb13 p polys13 os (g13 4) (g13 2) (g13 9)) as [[[h q]|]|] eqn:P; [|discriminate H..].
  exists p, os, h, q. split; [exact E|]. split; [exact H|]. split; [exact P|]. exists (claim13 0 3 9). split; [right; right; right; left; reflexivity|].
  intros A. apply (f_equal (zval 13)) in A. vm_compute in A. discriminate A.
Qed.
Print Assumptions C157_second_claim_refuted.

(** Grouping by single point: one group for every point, with the claims about it in their order. *)
Theorem C158_group_single : forall (K : fld) (os : list (opening K)), exists xs : list K, NoDup xs /\ (forall x, In x xs <-> In x (map o_point os)) /\
  group_by_single_point os = map (fun x => mk_grouped (map (fun o => (o_ref o, [o_value o])) (filter (fun o => feqb (o_point o) x) os)) [x]) xs.
Proof. exact grouping_single. Qed.
Print Assumptions C158_group_single.
(** Grouping by polynomial and points: every polynomial is in exactly one group, groups have different sets of points, and a group has exactly the points each of its polynomials is opened at,
    in increasing order, with the values of the first claims. *)
Theorem C158_group_multi : forall (K : fld) (ltb : K -> K -> bool) (os : list (opening K)), orders ltb -> exists gs, group_by_oracle_and_points ltb os = Some gs /\
  (forall g, In g gs -> g_polys g <> [] /\ StronglySorted (fun x y => ltb x y = true) (g_points g)) /\
  NoDup (map g_points gs) /\ NoDup (concat (map (fun g => map fst (g_polys g)) gs)) /\
  (forall o, In o os -> exists g vals, In g gs /\ In (o_ref o, vals) (g_polys g)) /\
  (forall g r vals, In g gs -> In (r, vals) (g_polys g) -> (forall x, In x (g_points g) <-> exists o, In o os /\ o_ref o = r /\ o_point o = x) /\ length vals = length (g_points g) /\
     forall k, k < length vals -> exists o, first_claim os o /\ o_ref o = r /\ o_point o = nth k (g_points g) 0%fld /\ o_value o = nth k vals 0%fld).
Proof. exact grouping_multi. Qed.
Print Assumptions C158_group_multi.
Example C158_nonvacuous : option_map (map (fun g : grouped F13 => (map (fun p => (fst p, map (fun x : F13 => zval 13 x) (snd p))) (g_polys g), map (fun x : F13 => zval 13 x) (g_points g))))
    (group_by_oracle_and_points ltb13 [claim13 0 5 1; claim13 1 3 2; claim13 0 3 3; claim13 2 3 4]) = Some [([(0, [3; 1]%Z)], [3; 5]%Z); ([(1, [2]%Z); (2, [4]%Z)], [3]%Z)].
Proof. vm_compute. reflexivity. Qed.

(** A prover whose CreateOpeningProof returned false can be used again: false for GWC; the batch stays open and the next call aborts. *)
Theorem C159_prover_reuse_refuted : exists (p : pcs S13 S13) (bad good : list (opening F13)) (b : batch S13), pcs_setup 3 2 (g13 8) (g13 2 : S13) (g13 6 : S13) 2 (g13 7) = Some (Some p) /\
  gwc_prove 5 3 p no_batch polys13 bad (g13 2) = Some (b, None) /\ gwc_prove 5 3 p b polys13 good (g13 2) = None /\
  exists proof, gwc_prove 5 3 p no_batch polys13 good (g13 2) = Some (no_batch, Some proof).
Proof.
  set (bad := [claim13 1 3 6]). set (good := [claim13 0 3 8]).
  assert (H : with13 false 2 7 (fun p => match gwc_prove 5 3 p no_batch polys13 bad (g13 2), gwc_prove 5 3 p no_batch polys13 good (g13 2) with
    | Some (b, None), Some (b', Some _) => match gwc_prove 5 3 p b polys13 good (g13 2) with None => Nat.eqb (b_count b') 0 && Nat.eqb (length (b_buffer b')) 0 | Some _ => false end | _, _ => false end) = true) by (vm_compute; reflexivity).
  unfold with13 in H. destruct (setup13 2 7) as [[p|]|] eqn:E; [|discriminate H..]. destruct (gwc_prove 5 3 p no_batch polys13 bad (g13 2)) as [[b [|]]|] eqn:P; [discriminate H| |discriminate H].
  destruct (gwc_prove 5 3 p no_batch polys13 good (g13 2)) as [[b' [proof|]]|] eqn:P'; [|discriminate H..]. destruct (gwc_prove 5 3 p b polys13 good (g13 2)) eqn:P2; [discriminate H|].
  exists p, bad, good, b. split; [exact E|]. split; [exact P|]. split; [exact P2|]. exists proof. rewrite P'. apply andb_true_iff in H. destruct H as [H1 H2]. apply Nat.eqb_eq in H1. apply Nat.eqb_eq in H2.
  destruct b' as [c l]. cbn [b_count b_buffer] in *. subst c. destruct l; [reflexivity|discriminate H2].
Qed.
Print Assumptions C159_prover_reuse_refuted.
