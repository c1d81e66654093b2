(** Groth16: what a user of zk/r1cs/groth16 relies on. *)
From Coq Require Import ZArith List Bool Arith Lia.
From Verif Require Import Field Zp FFTModel FFTSpec FFTProps CosetProps BatchProps FFTExtra R1csModel R1csSpec R1csExtra R1csProps GrothModel GrothSpec GrothProof GrothProof3 GrothProof4 GrothProof5 GrothExtra GrothInst.
Import ListNotations.
Open Scope nat_scope.

(** Completeness: for a circuit that accepts its values, the key loads, the prover returns a proof for every r and s, and the verifier accepts it for the public inputs of the circuit. *)
Theorem C140_complete : forall (K : fld) (G1 G2 GT : group K) (ep : pairing G1 G2 GT) (e : env K) (t : toxic_waste G1 G2) (keygen calls : circuit K) (r s : K),
  env_ok e -> proper calls -> same_circuit keygen calls -> constraints calls + (1 + length (instances calls)) <= 2 ^ e_adicity e -> t_gamma t <> 0%fld -> t_delta t <> 0%fld ->
  accepts calls (1%fld :: instances calls) (witnesses calls) ->
  exists pk pr, pk_load e t keygen = Some pk /\ vk_load e t keygen = Some (pk_vk pk) /\ create_proof_with_reduction e calls pk r s = Some pr /\ verify ep (prepare ep (pk_vk pk)) pr (instances calls) = Some true.
Proof. exact groth_complete. Qed.
Print Assumptions C140_complete.

(** w0 w0 = w1, w1 w0 = y + 3 over F13, with the field as all three groups. *)
Definition calls13 (y w0 w1 : Z) : circuit F13 :=
  [NewInstance (g13 y); NewWitness (g13 w0); NewWitness (g13 w1); Enforce [(g13 1, VWit 0)] [(g13 1, VWit 0)] [(g13 1, VWit 1)];
   Enforce [(g13 1, VWit 1)] [(g13 1, VWit 0)] [(g13 1, VInst 1); (g13 3, VOne)]].
Definition env13 : env F13 := mk_env F13 3 true backwards 2 (g13 8) (g13 2) insertion_sort.
Definition S13 : group F13 := self_group F13.
Definition e13 : pairing S13 S13 S13 := self_pairing F13.
Definition waste13 (x : Z) : toxic_waste S13 S13 := mk_toxic (g13 5) (g13 7) (g13 3) (g13 11) (g13 x) (g13 2 : S13) (g13 6 : S13).
Definition trial13 (x : Z) (calls : circuit F13) (r s : Z) (public : list F13) : option bool :=
  match pk_load env13 (waste13 x) (calls13 0 0 0) with
  | Some pk => match create_proof_with_reduction env13 calls pk (g13 r) (g13 s) with
               | Some pr => verify e13 (prepare e13 (pk_vk pk)) pr public
               | None => None
               end
  | None => None
  end.
Lemma env13_ok : env_ok env13.
Proof.
  split; [cbn; lia|]. split; [cbn; lia|]. split; [exact root13|]. split; [exact backwards_ok|]. split; [|split; [|exact insertion_sort_ok]].
  - intros E. apply (f_equal (zval 13)) in E. vm_compute in E. discriminate E.
  - intros E. apply (f_equal (zval 13)) in E. vm_compute in E. discriminate E.
Qed.
Example C140_nonvacuous : env_ok env13 /\ proper (calls13 5 2 4) /\ same_circuit (calls13 0 0 0) (calls13 5 2 4) /\ constraints (calls13 5 2 4) + (1 + length (instances (calls13 5 2 4))) <= 2 ^ 2 /\
  accepts (calls13 5 2 4) (1%fld :: instances (calls13 5 2 4)) (witnesses (calls13 5 2 4)) /\
  trial13 6 (calls13 5 2 4) 4 9 [g13 5] = Some true /\ trial13 6 (calls13 5 2 4) 4 9 [g13 6] = Some false /\ trial13 6 (calls13 5 2 4) 4 9 [] = Some false /\
  trial13 6 (calls13 5 2 5) 4 9 [g13 5] = Some false.
Proof.
  split; [exact env13_ok|]. split; [unfold proper, calls13; cbn; repeat split; repeat constructor; cbn; auto; lia|]. split; [unfold calls13; repeat constructor|]. split; [cbn; lia|].
  split; [|repeat split; vm_compute; reflexivity]. unfold accepts, calls13. cbn [holds]. split; [|split; [|exact Logic.I]]; apply zp_eq; vm_compute; reflexivity.
Qed.

(** The verifier returns for every key, proof and list of public inputs, and accepts exactly if there are as many public inputs as the key has room for and the pairing equation holds. *)
Theorem C141_verifier : forall (K : fld) (G1 G2 GT : group K) (ep : pairing G1 G2 GT) (vk : verifying_key G1 G2) (p : proof G1 G2) (public : list K), vk_l vk <> [] ->
  exists b, verify ep (prepare ep vk) p public = Some b /\
    (b = true <-> length public + 1 = length (vk_l vk) /\
       ep (pr_a p) (pr_b p) = (ep (vk_alpha vk) (vk_beta vk) + ep (weighted (1%fld :: public) (vk_l vk)) (vk_gamma vk) + ep (pr_c p) (vk_delta vk))%grp).
Proof. exact verifier_exact. Qed.
Print Assumptions C141_verifier.
Example C141_nonvacuous : option_map (fun pk => length (vk_l (pk_vk pk))) (pk_load env13 (waste13 6) (calls13 0 0 0)) = Some 2.
Proof. vm_compute. reflexivity. Qed.

(** A prover that runs the code on values the circuit does not accept is found out, for all but few secret points: of n points in the domain, at most 2 n - 2 points let any such proof pass. *)
Theorem C142_unsatisfied : forall (K : fld) (G1 G2 GT : group K) (ep : pairing G1 G2 GT) (e : env K) (t : toxic_waste G1 G2) (keygen calls : circuit K) (xs : list K),
  env_ok e -> proper calls -> same_circuit keygen calls -> constraints calls + (1 + length (instances calls)) <= 2 ^ e_adicity e -> t_gamma t <> 0%fld -> t_delta t <> 0%fld -> ep (t_g1 t) (t_g2 t) <> gzero ->
  ~ accepts calls (1%fld :: instances calls) (witnesses calls) ->
  NoDup xs -> (forall x, In x xs -> exists pk r s pr, pk_load e (with_x t x) keygen = Some pk /\ create_proof_with_reduction e calls pk r s = Some pr /\ verify ep (prepare ep (pk_vk pk)) pr (instances calls) = Some true) ->
  length xs <= 2 * 2 ^ domain_log calls - 2.
Proof. exact groth_sound. Qed.
Print Assumptions C142_unsatisfied.
Example C142_nonvacuous : ~ accepts (calls13 5 2 5) (1%fld :: instances (calls13 5 2 5)) (witnesses (calls13 5 2 5)) /\ domain_log (calls13 5 2 5) = 2 /\
  map (fun x => trial13 x (calls13 5 2 5) 4 9 [g13 5]) [2; 3; 4; 6; 7; 9; 10; 11]%Z = [Some false; Some false; Some false; Some false; Some false; Some false; Some false; Some false].
Proof.
  split; [|split; [reflexivity|vm_compute; reflexivity]]. unfold accepts, calls13. cbn [holds]. intros [H _]. apply (f_equal (zval 13)) in H. vm_compute in H. discriminate H.
Qed.

(** ReRandomizeProof keeps acceptance and rejection, for every key, proof and public inputs. *)
Theorem C143_re_randomize : forall (K : fld) (G1 G2 GT : group K) (ep : pairing G1 G2 GT) (vk : verifying_key G1 G2) (p : proof G1 G2) (public : list K) (r1 r2 : K), r1 <> 0%fld ->
  exists p', re_randomize vk p r1 r2 = Some p' /\ verify ep (prepare ep vk) p' public = verify ep (prepare ep vk) p public.
Proof. exact rerandomized. Qed.
Print Assumptions C143_re_randomize.
Example C143_nonvacuous : match pk_load env13 (waste13 6) (calls13 0 0 0) with
  | Some pk => match create_proof_with_reduction env13 (calls13 5 2 4) pk (g13 4) (g13 9) with
               | Some pr => match re_randomize (pk_vk pk) pr (g13 5) (g13 10) with
                            | Some pr' => (Z.eqb (zval 13 (pr_a pr)) (zval 13 (pr_a pr')), verify e13 (prepare e13 (pk_vk pk)) pr' [g13 5])
                            | None => (true, None)
                            end
               | None => (true, None)
               end
  | None => (true, None)
  end = (false, Some true).
Proof. vm_compute. reflexivity. Qed.

(** The loop that draws r1 and r2 goes on only while both are zero; with r1 = 0 and r2 <> 0 the function then aborts. *)
Theorem C144_draw_refuted : forall (K : fld) (G1 G2 : group K) (vk : verifying_key G1 G2) (p : proof G1 G2) (r2 : K) (rest : list (K * K)), r2 <> 0%fld ->
  draw ((0%fld, r2) :: rest) = Some (0%fld, r2) /\ re_randomize vk p 0%fld r2 = None.
Proof. exact draw_aborts. Qed.
Print Assumptions C144_draw_refuted.

(** Toxic waste with gamma = 0: the verifying key alone refuses to load, but the proving key loads, with a verifying key for which the triple (alpha, beta, 0), read off the key, is accepted for all public inputs. *)
Theorem C145_gamma_zero_refuted : forall (K : fld) (G1 G2 GT : group K) (ep : pairing G1 G2 GT) (e : env K) (t : toxic_waste G1 G2) (calls : circuit K),
  env_ok e -> proper calls -> constraints calls + (1 + length (instances calls)) <= 2 ^ e_adicity e -> t_gamma t = 0%fld ->
  vk_load e t calls = None /\ exists pk, pk_load e t calls = Some pk /\
    forall public, length public = length (instances calls) ->
      verify ep (prepare ep (pk_vk pk)) (mk_proof (vk_alpha (pk_vk pk)) (vk_beta (pk_vk pk)) gzero) public = Some true.
Proof. exact gamma_zero. Qed.
Print Assumptions C145_gamma_zero_refuted.

(** Soundness against a prover that combines the group elements of the key with weights of its own choice: if its proof is accepted on enough secrets, then the weights it put on the witness queries of C are values the circuit accepts. *)
Theorem C146_algebraic : forall (K : fld) (G1 G2 GT : group K) (ep : pairing G1 G2 GT) (e : env K) (g1 : G1) (g2 : G2) (calls : circuit K) (wA wC : weights1 K) (wB : weights2 K) (public Sa Sb Sg Sd Sx : list K),
  env_ok e -> proper calls -> constraints calls + (1 + length (instances calls)) <= 2 ^ e_adicity e -> ep g1 g2 <> gzero ->
  sized calls wA -> sized calls wC -> length (w2_b wB) = 1 + length (instances calls) + length (witnesses calls) -> length public = length (instances calls) ->
  NoDup Sa -> NoDup Sb -> NoDup Sg -> NoDup Sd -> NoDup Sx -> 2 <= length Sa -> 3 <= length Sb -> 3 <= length Sg -> 4 <= length Sd ->
  2 * 2 ^ domain_log calls - 1 <= length Sx -> ~ In 0%fld Sg -> ~ In 0%fld Sd ->
  (forall al be ga de x, In al Sa -> In be Sb -> In ga Sg -> In de Sd -> In x Sx ->
     exists pk, pk_load e (mk_toxic al be ga de x g1 g2) calls = Some pk /\
       verify ep (prepare ep (pk_vk pk)) (mk_proof (in_first wA pk) (in_second wB pk) (in_first wC pk)) public = Some true) ->
  accepts calls (1%fld :: public) (w_witness wC).
Proof. exact groth_algebraic. Qed.
Print Assumptions C146_algebraic.

(** Conversely, for all inputs the circuit accepts there are weights, with those inputs on the witness queries of C, that pass for every choice of secrets. *)
Theorem C147_weights : forall (K : fld) (G1 G2 GT : group K) (e : env K) (calls : circuit K) (public W : list K),
  env_ok e -> proper calls -> constraints calls + (1 + length (instances calls)) <= 2 ^ e_adicity e ->
  length public = length (instances calls) -> length W = length (witnesses calls) -> accepts calls (1%fld :: public) W ->
  exists wA wB wC, sized calls wA /\ sized calls wC /\ length (w2_b wB) = 1 + length (instances calls) + length (witnesses calls) /\ w_witness wC = W /\
    forall (ep : pairing G1 G2 GT) (t : toxic_waste G1 G2), t_gamma t <> 0%fld -> t_delta t <> 0%fld ->
      exists pk, pk_load e t calls = Some pk /\ verify ep (prepare ep (pk_vk pk)) (mk_proof (in_first wA pk) (in_second wB pk) (in_first wC pk)) public = Some true.
Proof. intros K G1 G2 GT. exact honest_weights. Qed.
Print Assumptions C147_weights.
Definition range13 (a n : nat) : list F13 := map (fun i => g13 (Z.of_nat i)) (seq a n).
Lemma range13_nodup a n : a + n <= 13 -> NoDup (range13 a n).
Proof.
  revert a. induction n as [|n IH]; intros a H; [constructor|]. change (range13 a (S n)) with (g13 (Z.of_nat a) :: range13 (S a) n). constructor; [|apply IH; lia].
  intros I. apply in_map_iff in I. destruct I as (i & E & Hi). apply in_seq in Hi. apply (f_equal (zval 13)) in E. rewrite !zval_mkz, !Z.mod_small in E by lia. lia.
Qed.
Lemma range13_nz a n : 1 <= a -> a + n <= 13 -> ~ In (0%fld : F13) (range13 a n).
Proof.
  intros Ha H I. apply in_map_iff in I. destruct I as (i & E & Hi). apply in_seq in Hi. apply (f_equal (zval 13)) in E. rewrite zval_mkz, Z.mod_small in E by lia.
  change (zval 13 (0%fld : F13)) with 0%Z in E. lia.
Qed.
Example C146_nonvacuous : let calls := calls13 5 2 4 in exists wA wB wC, sized calls wA /\ sized calls wC /\ length (w2_b wB) = 1 + length (instances calls) + length (witnesses calls) /\
  NoDup (range13 0 7) /\ NoDup (range13 1 4) /\ ~ In (0%fld : F13) (range13 1 4) /\ e13 (g13 2 : S13) (g13 6 : S13) <> gzero /\
  forall al be ga de x, In al (range13 0 7) -> In be (range13 0 7) -> In ga (range13 1 4) -> In de (range13 1 4) -> In x (range13 0 7) ->
     exists pk, pk_load env13 (mk_toxic al be ga de x (g13 2 : S13) (g13 6 : S13)) calls = Some pk /\
       verify e13 (prepare e13 (pk_vk pk)) (mk_proof (in_first wA pk) (in_second wB pk) (in_first wC pk)) [g13 5] = Some true.
Proof.
  intros calls. destruct C140_nonvacuous as (HE & HP & _ & Hf & Ha & _). fold calls in HP, Hf, Ha.
  destruct (C147_weights F13 S13 S13 S13 env13 calls (instances calls) (witnesses calls) HE HP Hf eq_refl eq_refl Ha) as (wA & wB & wC & H1 & H2 & H3 & _ & H).
  exists wA, wB, wC. split; [exact H1|]. split; [exact H2|]. split; [exact H3|]. split; [apply range13_nodup; lia|]. split; [apply range13_nodup; lia|]. split; [apply range13_nz; lia|].
  split; [intros E; apply (f_equal (zval 13)) in E; vm_compute in E; discriminate E|].
  intros al be ga de x _ _ Hga Hde _. apply H; cbn [t_gamma t_delta]; intros E; rewrite E in *; [revert Hga|revert Hde]; apply range13_nz; lia.
Qed.
