(** Packed fields: the statements of SimdProps. *)
From Coq Require Import ZArith Znumtheory List Bool Arith Lia Ring Field Field_theory.
From Verif Require Import BigIntModel BigIntProof Field Zp ParallelizeProof SemigroupModel SemigroupExtra SmallFieldModel SmallFieldSpec SmallFieldProof SmallFieldExtra SimdModel SimdSpec SimdProof SimdProof2.
Import ListNotations.
Open Scope Z_scope.

Lemma packed_ring n p a b : Z.odd p = true -> 2 < p < 2 ^ 31 -> lanes_in n p a -> lanes_in n p b ->
  lanes_are n p (add_mod32 (set1 p) a b) (fun i => a i + b i) /\ lanes_are n p (sub_mod32 (set1 p) a b) (fun i => a i - b i) /\
  lanes_are n p (negate_mod32 (set1 p) a) (fun i => - a i) /\ lanes_are n p (negate_mod32_512 (set1 p) a) (fun i => - a i) /\
  lanes_are n p (add_mod32_neon (set1 p) a b) (fun i => a i + b i) /\ lanes_are n p (sub_mod32_neon (set1 p) a b) (fun i => a i - b i) /\
  lanes_are n p (negate_mod32_neon (set1 p) a) (fun i => - a i).
Proof.
  intros Ho Hp Ha Hb.
  repeat split; intros i Hi; specialize (Ha i Hi); specialize (Hb i Hi).
  - apply (add_lane p 0 Ho Hp); assumption.
  - apply (sub_lane p 0 Ho Hp); assumption.
  - apply (negate_lane p 0 Ho Hp); assumption.
  - apply (negate_lane_512 p 0 Ho Hp); assumption.
  - apply (add_lane_neon p 0 Ho Hp); assumption.
  - apply (sub_lane_neon p 0 Ho Hp); assumption.
  - apply (negate_lane_neon p 0 Ho Hp); assumption.
Qed.
Lemma rep_lin p x y a b : 2 < p -> represents32 p a x -> represents32 p b y ->
  represents32 p ((a + b) mod p) (x + y) /\ represents32 p ((a - b) mod p) (x - y) /\ represents32 p ((- a) mod p) (- x).
Proof.
  intros Hp [Ra Ea] [Rb Eb]. unfold represents32. subst a b. repeat split; try (apply Z.mod_pos_bound; lia).
  - rewrite <- Zplus_mod. f_equal. ring.
  - rewrite <- Zminus_mod. f_equal. ring.
  - rewrite <- !Z.sub_0_l, Zminus_mod_idemp_r. f_equal. ring.
Qed.
Lemma packed_ring_mont n p a b x y : Z.odd p = true -> 2 < p < 2 ^ 31 -> lanes_represent n p a x -> lanes_represent n p b y ->
  lanes_represent n p (add_mod32 (set1 p) a b) (fun i => x i + y i) /\ lanes_represent n p (sub_mod32 (set1 p) a b) (fun i => x i - y i) /\
  lanes_represent n p (negate_mod32 (set1 p) a) (fun i => - x i) /\ lanes_represent n p (negate_mod32_512 (set1 p) a) (fun i => - x i) /\
  lanes_represent n p (add_mod32_neon (set1 p) a b) (fun i => x i + y i) /\ lanes_represent n p (sub_mod32_neon (set1 p) a b) (fun i => x i - y i) /\
  lanes_represent n p (negate_mod32_neon (set1 p) a) (fun i => - x i).
Proof.
  intros Ho Hp Ha Hb.
  destruct (packed_ring n p a b Ho Hp (fun i Hi => proj1 (Ha i Hi)) (fun i Hi => proj1 (Hb i Hi))) as (A & B & C & D & E & F & G).
  pose proof (fun i Hi => rep_lin p (x i) (y i) (a i) (b i) (proj1 Hp) (Ha i Hi) (Hb i Hi)) as R.
  repeat match goal with |- _ /\ _ => split end; intros i Hi;
    [rewrite A by exact Hi|rewrite B by exact Hi|rewrite C by exact Hi|rewrite D by exact Hi|rewrite E by exact Hi|rewrite F by exact Hi|rewrite G by exact Hi]; apply (R i Hi).
Qed.
Lemma packed_mul p a b x y : Z.odd p = true -> 2 < p < 2 ^ 31 ->
  (lanes_represent 8 p a x -> lanes_represent 8 p b y -> lanes_represent 8 p (mont_mul_mod32 (set1 p) (set1 (inverse32 p)) a b) (fun i => x i * y i)) /\
  (lanes_represent 16 p a x -> lanes_represent 16 p b y -> lanes_represent 16 p (mont_mul_mod32_512 (set1 p) (set1 (inverse32 p)) a b) (fun i => x i * y i)) /\
  (lanes_represent 4 p a x -> lanes_represent 4 p b y -> lanes_represent 4 p (mont_mul_mod32_neon (set1 p) (set1 (inverse32 p)) a b) (fun i => x i * y i)).
Proof.
  intros Ho Hp. pose proof (inverse32_spec p Ho) as Hi. split; [|split]; intros Ha Hb.
  - apply mont_mul_lanes; auto.
  - apply mont_mul_512; auto.
  - apply mont_mul_neon; auto.
Qed.
Lemma packed_exp p a x : Z.odd p = true -> 2 < p < 2 ^ 31 -> lanes_represent 8 p a x ->
  lanes_represent 8 p (exp3 (set1 p) (set1 (inverse32 p)) a) (fun i => x i ^ 3) /\
  lanes_represent 8 p (exp5 (set1 p) (set1 (inverse32 p)) a) (fun i => x i ^ 5) /\
  lanes_represent 8 p (exp7 (set1 p) (set1 (inverse32 p)) a) (fun i => x i ^ 7).
Proof.
  intros Ho Hp Ha. pose proof (inverse32_spec p Ho) as Hi. split; [|split].
  - apply exp3_lanes; auto.
  - apply exp5_lanes; auto.
  - apply exp7_lanes; auto.
Qed.
Lemma packed_mersenne a b :
  (lanes_in 8 mersenne31 a -> lanes_in 8 mersenne31 b -> lanes_are 8 mersenne31 (mersenne_mul (set1 mersenne31) a b) (fun i => a i * b i)) /\
  (lanes_in 16 mersenne31 a -> lanes_in 16 mersenne31 b -> lanes_are 16 mersenne31 (mersenne_mul_512 (set1 mersenne31) a b) (fun i => a i * b i)) /\
  (lanes_in 4 mersenne31 a -> lanes_in 4 mersenne31 b -> lanes_are 4 mersenne31 (mersenne_mul_neon (set1 mersenne31) a b) (fun i => a i * b i)).
Proof.
  split; [|split]; intros Ha Hb.
  - apply mersenne_avx2; auto.
  - apply mersenne_avx512; auto.
  - apply mersenne_neon; auto.
Qed.
Notation scalar_inverse := (fun x => if feqb x f0 then None else Some (finv x)).
Section Lane.
  Variable K : fld.
  Add Field Ksimd : (fld_theory K).
  Lemma inverse_lane (g : K) : fmul f1 (finv g) = finv g. Proof. ring. Qed.
End Lane.
Lemma packed_inverse_spec (K : fld) (values : list K) :
  packed_inverse f0 f1 fmul scalar_inverse (fun x => feqb x f0) (fun x => feqb x f1) values = Some (map (fun v => if feqb v f0 then f0 else finv v) values) /\
  packed_inverse_in_place f0 f1 fmul scalar_inverse (fun x => feqb x f0) (fun x => feqb x f1) values = Some (map (fun v => if feqb v f0 then f0 else finv v) values).
Proof.
  assert (E : map (fun g => if feqb g f0 then f0 else fmul f1 (finv g)) values = map (fun v : K => if feqb v f0 then f0 else finv v) values)
    by (apply map_ext; intros g; rewrite inverse_lane; reflexivity).
  unfold packed_inverse, packed_inverse_in_place. split; rewrite batch_serial, E; auto.
  - rewrite map_length. reflexivity.
  - discriminate.
Qed.
Lemma packed_inverse_mul (K : fld) (values : list K) : Forall (fun v => v <> f0) values ->
  exists inv, packed_inverse f0 f1 fmul scalar_inverse (fun x => feqb x f0) (fun x => feqb x f1) values = Some inv /\
    Forall2 (fun v i => fmul v i = f1) values inv.
Proof.
  intros H. eexists. split; [apply packed_inverse_spec|]. induction H as [|v r Hv Hr IH]; cbn [map]; constructor; auto.
  rewrite (proj2 (feqb_neq K v f0) Hv). apply finv_r. exact Hv.
Qed.
Lemma packed_inverse_zero : exists values inv : list F7, packed_inverse f0 f1 fmul scalar_inverse (fun x => feqb x f0) (fun x => feqb x f1) values = Some inv /\
  (exists v, In v values /\ @feqb F7 v f0 = true) /\ ~ Forall2 (fun v i => fmul v i = f1) values inv.
Proof.
  exists [f0], [f0]. split; [rewrite (proj1 (packed_inverse_spec F7 [f0])); cbn [map]; rewrite feqb_refl; reflexivity|]. split.
  - exists f0. split; [left; reflexivity|apply feqb_refl].
  - intros H. inversion H as [|? ? ? ? E]; subst. apply (f_equal (zval 7)) in E. vm_compute in E. discriminate.
Qed.
Lemma packed_construct n p v : Z.odd p = true -> 2 < p < 2 ^ 31 -> 0 <= v < 2 ^ 32 -> lanes_represent n p (packed_of_mont p v) (fun _ => v).
Proof.
  intros Ho Hp Hv i _. pose proof (proj1 (rep_conv p Ho Hp) v Hv) as H. unfold packed_of_mont, set1. rewrite trunc_small; [exact H|]. destruct H as [H _]. lia.
Qed.
Lemma packed_construct_mersenne n v : 0 <= v < mersenne31 -> lanes_are n mersenne31 (packed_of_mersenne v) (fun _ => v).
Proof.
  intros Hv i _. unfold packed_of_mersenne, set1. unfold mersenne31 in *. rewrite trunc_small by lia. symmetry. apply Z.mod_small. exact Hv.
Qed.
Lemma packed_construct_wrong : exists v, 0 <= v < 2 ^ 32 /\ ~ lanes_are 4 mersenne31 (packed_of_mersenne v) (fun _ => v) /\ ~ lanes_in 4 mersenne31 (packed_of_mersenne v).
Proof.
  exists mersenne31. split; [unfold mersenne31; lia|]. split; intros H.
  - specialize (H 0%nat ltac:(lia)). vm_compute in H. discriminate.
  - specialize (H 0%nat ltac:(lia)). destruct H as [_ H]. vm_compute in H. discriminate.
Qed.
