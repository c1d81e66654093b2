(** Quadratic arithmetic programs: what a user of zk/r1cs relies on between the constraint system and Groth16. *)
From Coq Require Import ZArith List Bool Arith Lia.
From Verif Require Import Field Zp PolySpec FFTModel FFTSpec FFTProps BatchProps FFTExtra DomainSpec R1csModel R1csSpec R1csExtra R1csProps R1csProof6 QapModel QapSpec QapProof2 QapExtra.
Import ListNotations.
Open Scope nat_scope.

(** InstanceMap evaluates, at x, the polynomials that an assignment combines: with the assignment as weights its columns add up to A(x), B(x) and C(x). *)
Theorem C134_instance_map : forall (K : fld) (adicity : nat) (root : K) (k : nat) (d : domain K) (threads : Z) (m : matrices K) (x : K),
  (adicity < 62)%nat -> primitive_root root (2 ^ adicity) -> (k <= adicity)%nat -> radix2_domain adicity root k 1%fld d -> (0 < threads < 128)%Z ->
  well_shaped m -> (m_con m + m_inst m <= 2 ^ k)%nat ->
  exists q, instance_map threads d m x = Some q /\ q_t q = (x ^ (2 ^ k) - 1)%fld /\
    (q_t q = 0%fld <-> In x (coset_points 1%fld (generator adicity root k) (2 ^ k))) /\
    length (q_a q) = (m_inst m + m_wit m)%nat /\ length (q_b q) = (m_inst m + m_wit m)%nat /\ length (q_c q) = (m_inst m + m_wit m)%nat /\
    forall z, length z = (m_inst m + m_wit m)%nat ->
      (exists A B C, qap_polys m z (generator adicity root k) (2 ^ k) A B C) /\
      forall A B C, qap_polys m z (generator adicity root k) (2 ^ k) A B C ->
        inner z (q_a q) = eval A x /\ inner z (q_b q) = eval B x /\ inner z (q_c q) = eval C x.
Proof. exact qap_instance. Qed.
Print Assumptions C134_instance_map.

(** Two constraints over F17: w0 w0 = w1 and w1 w0 = y + 3; variables 1, y, w0, w1. *)
Definition m17q : matrices F17 :=
  mk_matrices 2 2 2 [[(g17 1, 2)]; [(g17 1, 3)]] [[(g17 1, 2)]; [(g17 1, 2)]] [[(g17 1, 3)]; [(g17 3, 0); (g17 1, 1)]].
Definition z17 (y w0 w1 : Z) : list F17 := [g17 1; g17 y; g17 w0; g17 w1].
Definition d17q : domain F17 := match create_domain 4 (g17 3) 4 with Some d => d | None => mk_domain 0 0 (g17 0) (g17 0) (g17 0) (g17 0) (g17 0) (g17 0) (g17 0) end.
Lemma d17q_ok : radix2_domain 4 (g17 3) 2 1%fld d17q.
Proof.
  unfold radix2_domain, d17q. change (2 ^ 2) with 4.
  assert (H : match create_domain 4 (g17 3) 4 with Some _ => true | None => false end = true) by (vm_compute; reflexivity).
  destruct (create_domain 4 (g17 3) 4) as [d|]; [|discriminate H]. exists d. split; [reflexivity|left; split; reflexivity].
Qed.
Lemma m17q_ok : well_shaped m17q.
Proof.
  unfold well_shaped, m17q. cbn [m_a m_b m_c m_con m_inst m_wit length app]. repeat (split; [lia|]).
  intros row c H1 H2. repeat (destruct H1 as [<-|H1]; [repeat (destruct H2 as [<-|H2]; [cbn [snd]; lia|]); destruct H2|]). destruct H1.
Qed.
Example C134_nonvacuous : (m_con m17q + m_inst m17q <= 2 ^ 2)%nat /\
  option_map (fun q : instance_map_result F17 => (map (zval 17) (q_a q), map (zval 17) (q_b q), map (zval 17) (q_c q), zval 17 (q_t q))) (instance_map 3 d17q m17q (g17 6))
    = Some ([9; 10; 1; 15]%Z, [0; 0; 16; 0]%Z, [11; 15; 0; 1]%Z, 3%Z).
Proof. split; [cbn; lia|]. vm_compute. reflexivity. Qed.

(** WitnessMap returns, for a satisfying assignment, the coefficients of the quotient of A B - C by the vanishing polynomial of the domain: one fewer than the domain has points. It returns for every assignment. *)
Theorem C135_witness_map : forall (K : fld) (adicity : nat) (root : K) (k : nat) (d : domain K) (small : bool) (threads : Z)
    (sched : forall A : Type, nat -> list A -> list A) (it : item K) (gen : K) (m : matrices K) (z : list K),
  (adicity < 62)%nat -> primitive_root root (2 ^ adicity) -> (k <= adicity)%nat -> radix2_domain adicity root k 1%fld d -> (m_con m + m_inst m <= 2 ^ k)%nat ->
  (0 < threads < 2 ^ 62)%Z -> schedules sched -> complete_item small false k (generator adicity root k) it -> gen <> 0%fld -> (gen ^ (2 ^ k) <> 1)%fld ->
  well_shaped m -> assignment m z ->
  exists h, witness_map threads sched d it gen m z = Some h /\
    (rows_hold m z -> (length h < 2 ^ k)%nat /\
       forall A B C, qap_polys m z (generator adicity root k) (2 ^ k) A B C ->
         forall x, (eval A x * eval B x - eval C x = eval h x * (x ^ (2 ^ k) - 1))%fld).
Proof. exact witness_map_satisfied. Qed.
Print Assumptions C135_witness_map.
Definition item17 : item F17 := match build_item true 3 backwards d17q false with Some it => it | None => mk_item [] [] [] [] None end.
Example C135_nonvacuous : complete_item true false 2 (generator 4 (g17 3) 2) item17 /\ (g17 3 ^ (2 ^ 2) <> 1)%fld /\
  assignment m17q (z17 5 2 4) /\ rows_hold m17q (z17 5 2 4) /\
  option_map (map (zval 17)) (witness_map 3 backwards d17q item17 (g17 3) m17q (z17 5 2 4)) = Some [0; 15; 13]%Z.
Proof.
  split; [|split; [|split; [|split]]].
  - destruct (fresh_item F17 4 (g17 3) 2 1%fld d17q true 3 backwards false ltac:(lia) root17 ltac:(lia) d17q_ok ltac:(lia) backwards_ok) as (it & E & H).
    unfold item17. rewrite E. exact H.
  - intros E. apply (f_equal (zval 17)) in E. vm_compute in E. discriminate E.
  - split; [reflexivity|]. reflexivity.
  - intros i Hi. cbn [m17q m_con] in Hi. apply zp_eq. destruct i as [|[|i]]; [vm_compute; reflexivity|vm_compute; reflexivity|lia].
  - vm_compute. reflexivity.
Qed.

(** Conversely: if some polynomial h of that degree satisfies the identity at 2 n - 1 points, the assignment satisfies every constraint. *)
Theorem C136_identity_sound : forall (K : fld) (m : matrices K) (z : list K) (g : K) (n : nat) (A B C h xs : list K),
  primitive_root g n -> (0 < n)%nat -> (m_con m <= n)%nat -> qap_polys m z g n A B C -> (length h < n)%nat ->
  NoDup xs -> (forall x, In x xs -> (eval A x * eval B x - eval C x = eval h x * (x ^ n - 1))%fld) -> (2 * n - 1 <= length xs)%nat ->
  rows_hold m z.
Proof. exact schwartz_zippel. Qed.
Print Assumptions C136_identity_sound.
Definition l17 (l : list Z) : list F17 := map (fun i => g17 i) l.
Example C136_nonvacuous : primitive_root (generator 4 (g17 3) 2) 4 /\
  qap_polys m17q (z17 5 2 4) (generator 4 (g17 3) 2) 4 (l17 [3; 12; 7; 14]%Z) (l17 [1; 11; 0; 7]%Z) (l17 [3; 9; 16; 10]%Z) /\
  NoDup (l17 [1; 2; 3; 4; 5; 6; 7]%Z) /\
  (forall x, In x (l17 [1; 2; 3; 4; 5; 6; 7]%Z) -> (eval (l17 [3; 12; 7; 14]%Z) x * eval (l17 [1; 11; 0; 7]%Z) x - eval (l17 [3; 9; 16; 10]%Z) x = eval (l17 [0; 15; 13]%Z) x * (x ^ 4 - 1))%fld).
Proof.
  split; [|split; [|split]].
  - split; [apply zp_eq; vm_compute; reflexivity|]. intros i Hi E. apply (f_equal (zval 17)) in E.
    destruct i as [|[|[|[|i]]]]; try lia; vm_compute in E; discriminate E.
  - split; [|split]; (split; [cbn; lia|]); intros i Hi; apply zp_eq; (destruct i as [|[|[|[|i]]]]; [vm_compute; reflexivity..|lia]).
  - apply (NoDup_map_inv (zval 17)). vm_compute. repeat constructor; cbn; intuition discriminate.
  - intros x Hx. apply zp_eq. unfold l17 in Hx. cbn [map In] in Hx. repeat (destruct Hx as [<-|Hx]; [vm_compute; reflexivity|]). destruct Hx.
Qed.

(** ComputeHQuery: element i of the query is x^i t / delta, and with the coefficients of a polynomial h as weights it adds up to h(x) t / delta. *)
Theorem C137_h_query : forall (K : fld) (adicity : nat) (root : K) (k : nat) (d : domain K) (threads : Z) (t x dinv : K),
  (adicity < 62)%nat -> primitive_root root (2 ^ adicity) -> (k <= adicity)%nat -> radix2_domain adicity root k 1%fld d -> (0 < threads < 2 ^ 62)%Z ->
  exists q, compute_h_query threads d t x dinv = Some q /\ length q = (2 ^ k - 1)%nat /\
    (forall i, (i < 2 ^ k - 1)%nat -> nth i q 0%fld = (x ^ i * t * dinv)%fld) /\
    forall h, (length h < 2 ^ k)%nat -> inner h (firstn (length h) q) = (eval h x * t * dinv)%fld.
Proof. exact h_query_all. Qed.
Print Assumptions C137_h_query.
Example C137_nonvacuous : option_map (map (zval 17)) (compute_h_query 2 d17q (g17 5) (g17 2) (g17 3)) = Some [15; 13; 9]%Z.
Proof. vm_compute. reflexivity. Qed.

(** The key generator and the prover work with the same matrices: they depend neither on the mode of the constraint system nor on the values assigned to the variables. *)
Theorem C138_same_matrices : forall (K : fld) (sort : lc K -> lc K) (setup setup' construct construct' goal : bool) (calls calls' : circuit K) s s' t t',
  same_circuit calls calls' -> setup = true \/ construct = true -> setup' = true \/ construct' = true ->
  synthesize (new_cs setup construct goal) calls = Some s -> finalize sort s = Some s' ->
  synthesize (new_cs setup' construct' goal) calls' = Some t -> finalize sort t = Some t' ->
  to_matrices s' = to_matrices t'.
Proof. exact same_matrices. Qed.
Print Assumptions C138_same_matrices.
Example C138_nonvacuous : same_circuit (circuit7 2 2 3) (circuit7 0 4 6) /\ finalized true true (circuit7 2 2 3) <> None /\ finalized false true (circuit7 0 4 6) <> None.
Proof.
  split; [|split].
  - unfold circuit7. repeat constructor.
  - intros E. apply (f_equal (fun o => match o with Some _ => true | None => false end)) in E. vm_compute in E. discriminate E.
  - intros E. apply (f_equal (fun o => match o with Some _ => true | None => false end)) in E. vm_compute in E. discriminate E.
Qed.

(** The size check of InstanceMap and WitnessMap, domain size >= number of constraints, is not enough: on a domain that passes it the instance variables have no points, and both read or write outside a vector. The callers in the library create the domain for constraints + instance variables (C134, C135). *)
Theorem C139_size_check_refuted : exists (d : domain F17) (it : item F17) (m : matrices F17) (z : list F17),
  well_shaped m /\ assignment m z /\ rows_hold m z /\ radix2_domain 4 (g17 3) 1 1%fld d /\ complete_item true false 1 (generator 4 (g17 3) 1) it /\
  (m_con m <= d_size d)%nat /\ instance_map 3 d m (g17 6) = None /\ witness_map 3 backwards d it (g17 3) m z = None.
Proof.
  assert (H : match create_domain 4 (g17 3) 2 with Some d => match build_item true 3 backwards d false with Some it =>
      Nat.eqb (d_size d) 2 && match instance_map 3 d m17q (g17 6) with None => true | Some _ => false end && match witness_map 3 backwards d it (g17 3) m17q (z17 5 2 4) with None => true | Some _ => false end
      | None => false end | None => false end = true) by (vm_compute; reflexivity).
  destruct (create_domain 4 (g17 3) 2) as [d|] eqn:Ed; [|discriminate H]. destruct (build_item true 3 backwards d false) as [it|] eqn:Ei; [|discriminate H].
  exists d, it, m17q, (z17 5 2 4). apply andb_prop in H. destruct H as [H H3]. apply andb_prop in H. destruct H as [H1 H2]. apply Nat.eqb_eq in H1.
  assert (HR : radix2_domain 4 (g17 3) 1 1%fld d) by (exists d; split; [exact Ed|left; split; reflexivity]).
  split; [exact m17q_ok|]. destruct C135_nonvacuous as (_ & _ & HA & Hr & _). split; [exact HA|]. split; [exact Hr|]. split; [exact HR|].
  split. { destruct (fresh_item F17 4 (g17 3) 1 1%fld d true 3 backwards false ltac:(lia) root17 ltac:(lia) HR ltac:(lia) backwards_ok) as (it' & E & HI). rewrite E in Ei. injection Ei as <-. exact HI. }
  split; [rewrite H1; cbn; lia|]. split; [destruct (instance_map 3 d m17q (g17 6)); [discriminate H2|reflexivity]|].
  destruct (witness_map 3 backwards d it (g17 3) m17q (z17 5 2 4)); [discriminate H3|reflexivity].
Qed.
Print Assumptions C139_size_check_refuted.
