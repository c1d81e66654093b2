(** Groth16: the remaining statements. *)
From Coq Require Import ZArith Lia List Bool Arith.
From Verif Require Import Field FFTModel FFTSpec R1csModel R1csSpec QapModel QapSpec GrothModel GrothSpec GrothProof GrothProof2 GrothExtra.
Import ListNotations.
Open Scope nat_scope.

Theorem verifier_exact : forall (K : fld) (G1 G2 GT : group K) (ep : pairing G1 G2 GT) (vk : verifying_key G1 G2) (p : proof G1 G2) (public : list K), vk_l vk <> [] ->
  exists b, verify ep (prepare ep vk) p public = Some b /\
    (b = true <-> length public + 1 = length (vk_l vk) /\
       ep (pr_a p) (pr_b p) = (ep (vk_alpha vk) (vk_beta vk) + ep (weighted (1%fld :: public) (vk_l vk)) (vk_gamma vk) + ep (pr_c p) (vk_delta vk))%grp).
Proof.
  intros K G1 G2 GT ep vk p public H. destruct (vk_l vk) as [|l0 ls] eqn:E; [contradiction|]. destruct (verify_exact ep vk p public l0 ls E) as (b & Eb & Hb).
  exists b. split; [exact Eb|]. rewrite E in Hb. rewrite Hb. cbn [length]. split; intros [L HH]; (split; [lia|exact HH]).
Qed.
Theorem rerandomized : forall (K : fld) (G1 G2 GT : group K) (ep : pairing G1 G2 GT) (vk : verifying_key G1 G2) (p : proof G1 G2) (public : list K) (r1 r2 : K), r1 <> 0%fld ->
  exists p', re_randomize vk p r1 r2 = Some p' /\ verify ep (prepare ep vk) p' public = verify ep (prepare ep vk) p public.
Proof. intros K G1 G2 GT ep vk p public r1 r2 H. exact (re_randomize_verify ep vk p public r1 r2 H). Qed.
Theorem draw_aborts : forall (K : fld) (G1 G2 : group K) (vk : verifying_key G1 G2) (p : proof G1 G2) (r2 : K) (rest : list (K * K)), r2 <> 0%fld ->
  draw ((0%fld, r2) :: rest) = Some (0%fld, r2) /\ re_randomize vk p 0%fld r2 = None.
Proof.
  intros K G1 G2 vk p r2 rest H. cbn [draw]. unfold re_randomize. assert (E0 : feqb (0%fld : K) 0%fld = true) by (apply feqb_eq; reflexivity). rewrite E0.
  split; [|reflexivity]. destruct (feqb r2 0%fld) eqn:E; [apply feqb_eq in E; contradiction|reflexivity].
Qed.
Theorem gamma_zero : forall (K : fld) (G1 G2 GT : group K) (ep : pairing G1 G2 GT) (e : env K) (t : toxic_waste G1 G2) (calls : circuit K),
  env_ok e -> proper calls -> constraints calls + (1 + length (instances calls)) <= 2 ^ e_adicity e -> t_gamma t = 0%fld ->
  vk_load e t calls = None /\ exists pk, pk_load e t calls = Some pk /\
    forall public, length public = length (instances calls) ->
      verify ep (prepare ep (pk_vk pk)) (mk_proof (vk_alpha (pk_vk pk)) (vk_beta (pk_vk pk)) gzero) public = Some true.
Proof.
  intros K G1 G2 GT ep e t calls HE HP Hf Hg.
  destruct (run_spec e true calls HE HP Hf) as (s & m & d & ER & HM & M1 & M2 & M3 & Hk & HR & Hn & _ & _).
  destruct (pk_spec (G1 := G1) (G2 := G2) e t calls s m d HE ER HM Hk HR Hn) as (q & lg & hq & lw & _ & Epk & Evk & _ & _ & Llg & _).
  split. { rewrite Evk, Hg. assert (E0 : feqb (0%fld : K) 0%fld = true) by (apply feqb_eq; reflexivity). rewrite E0. reflexivity. }
  eexists. split; [exact Epk|]. cbn [pk_vk]. intros public Lp. set (vk := mk_vk _ _ _ _ _).
  destruct (verifier_exact K G1 G2 GT ep vk (mk_proof (vk_alpha vk) (vk_beta vk) gzero) public) as (b & Eb & Hb).
  { unfold vk. cbn [vk_l]. intros E. apply (f_equal (@length _)) in E. unfold fixed_base in E. rewrite map_length in E. cbn in E. lia. }
  rewrite Eb. f_equal. apply Hb. split; [unfold vk; cbn [vk_l]; unfold fixed_base; rewrite map_length; lia|]. cbn [pr_a pr_b pr_c].
  assert (Z1 : vk_gamma vk = gzero) by (unfold vk; cbn [vk_gamma]; rewrite Hg; apply gmul_0).
  assert (Z2 : forall u, ep u gzero = gzero) by (intros u; rewrite <- (gmul_0 (gzero : G2)), pair_mul_r; apply gmul_0).
  assert (Z3 : forall u, ep gzero u = gzero) by (intros u; rewrite <- (gmul_0 (gzero : G1)), pair_mul_l; apply gmul_0).
  rewrite Z1, Z2, Z3, !gadd_zero_r. reflexivity.
Qed.
