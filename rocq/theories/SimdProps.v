(** Property theorems C183 to C189 for the packed 32-bit prime fields on AVX2, AVX-512 and NEON. *)
From Coq Require Import ZArith List Bool Arith Lia.
From Verif Require Import BigIntModel Field Zp SemigroupModel SmallFieldModel SmallFieldSpec SimdModel SimdSpec SimdExtra.
Import ListNotations.
Open Scope Z_scope.

(** C183. Sums, differences and negations, lane by lane: for canonical residues (Mersenne31) and for Montgomery forms (BabyBear,
    KoalaBear). AVX2 and AVX-512 share AddMod32 and SubMod32. *)
Theorem C183_packed_ring : forall n p a b, Z.odd p = true -> 2 < p < 2 ^ 31 -> lanes_in n p a -> lanes_in n p b ->
  lanes_are n p (add_mod32 (set1 p) a b) (fun i => a i + b i) /\ lanes_are n p (sub_mod32 (set1 p) a b) (fun i => a i - b i) /\
  lanes_are n p (negate_mod32 (set1 p) a) (fun i => - a i) /\ lanes_are n p (negate_mod32_512 (set1 p) a) (fun i => - a i) /\
  lanes_are n p (add_mod32_neon (set1 p) a b) (fun i => a i + b i) /\ lanes_are n p (sub_mod32_neon (set1 p) a b) (fun i => a i - b i) /\
  lanes_are n p (negate_mod32_neon (set1 p) a) (fun i => - a i).
Proof. exact packed_ring. Qed.
Print Assumptions C183_packed_ring.
Theorem C183_packed_ring_montgomery : forall n p a b x y, Z.odd p = true -> 2 < p < 2 ^ 31 -> lanes_represent n p a x -> lanes_represent n p b y ->
  lanes_represent n p (add_mod32 (set1 p) a b) (fun i => x i + y i) /\ lanes_represent n p (sub_mod32 (set1 p) a b) (fun i => x i - y i) /\
  lanes_represent n p (negate_mod32 (set1 p) a) (fun i => - x i) /\ lanes_represent n p (negate_mod32_512 (set1 p) a) (fun i => - x i) /\
  lanes_represent n p (add_mod32_neon (set1 p) a b) (fun i => x i + y i) /\ lanes_represent n p (sub_mod32_neon (set1 p) a b) (fun i => x i - y i) /\
  lanes_represent n p (negate_mod32_neon (set1 p) a) (fun i => - x i).
Proof. exact packed_ring_mont. Qed.
Print Assumptions C183_packed_ring_montgomery.
Example C183_nonvacuous : let p := 2013265921 in let a := fun i => Z.of_nat i in let b := fun i => p - 1 - Z.of_nat i in
  (Z.odd p = true /\ 2 < p < 2 ^ 31) /\ lanes_in 8 p a /\ lanes_in 8 p b /\
  map (add_mod32 (set1 p) a b) [0%nat; 1%nat] = [p - 1; p - 1] /\ map (sub_mod32 (set1 p) a b) [0%nat; 1%nat] = [1; 3] /\
  map (negate_mod32 (set1 p) a) [0%nat; 1%nat] = [0; p - 1].
Proof.
  cbv zeta. split; [split; [reflexivity|lia]|]. split; [intros i Hi; lia|]. split; [intros i Hi; lia|]. repeat split; vm_compute; reflexivity.
Qed.

(** C184. Montgomery products. *)
Theorem C184_packed_mul : forall p a b x y, Z.odd p = true -> 2 < p < 2 ^ 31 ->
  (lanes_represent 8 p a x -> lanes_represent 8 p b y -> lanes_represent 8 p (mont_mul_mod32 (set1 p) (set1 (inverse32 p)) a b) (fun i => x i * y i)) /\
  (lanes_represent 16 p a x -> lanes_represent 16 p b y -> lanes_represent 16 p (mont_mul_mod32_512 (set1 p) (set1 (inverse32 p)) a b) (fun i => x i * y i)) /\
  (lanes_represent 4 p a x -> lanes_represent 4 p b y -> lanes_represent 4 p (mont_mul_mod32_neon (set1 p) (set1 (inverse32 p)) a b) (fun i => x i * y i)).
Proof. exact packed_mul. Qed.
Print Assumptions C184_packed_mul.
Example C184_nonvacuous : let p := 2013265921 in let a := packed_of_mont p 5 in let b := packed_of_mont p 7 in
  lanes_represent 16 p a (fun _ => 5) /\ lanes_represent 16 p b (fun _ => 7) /\
  map (sfm_value p) [mont_mul_mod32 (set1 p) (set1 (inverse32 p)) a b 3%nat; mont_mul_mod32_512 (set1 p) (set1 (inverse32 p)) a b 14%nat;
                     mont_mul_mod32_neon (set1 p) (set1 (inverse32 p)) a b 2%nat] = [35; 35; 35].
Proof.
  cbv zeta. split; [apply packed_construct; [reflexivity|lia|lia]|]. split; [apply packed_construct; [reflexivity|lia|lia]|]. vm_compute. reflexivity.
Qed.

(** C185. The powers of the s-boxes (AVX2). *)
Theorem C185_packed_powers : forall p a x, Z.odd p = true -> 2 < p < 2 ^ 31 -> lanes_represent 8 p a x ->
  lanes_represent 8 p (exp3 (set1 p) (set1 (inverse32 p)) a) (fun i => x i ^ 3) /\
  lanes_represent 8 p (exp5 (set1 p) (set1 (inverse32 p)) a) (fun i => x i ^ 5) /\
  lanes_represent 8 p (exp7 (set1 p) (set1 (inverse32 p)) a) (fun i => x i ^ 7).
Proof. exact packed_exp. Qed.
Print Assumptions C185_packed_powers.
Example C185_nonvacuous : let p := 2130706433 in let a := packed_of_mont p 3 in
  lanes_represent 8 p a (fun _ => 3) /\
  map (sfm_value p) [exp3 (set1 p) (set1 (inverse32 p)) a 4%nat; exp5 (set1 p) (set1 (inverse32 p)) a 5%nat; exp7 (set1 p) (set1 (inverse32 p)) a 7%nat] = [27; 243; 2187].
Proof. cbv zeta. split; [apply packed_construct; [reflexivity|lia|lia]|]. vm_compute. reflexivity. Qed.

(** C186. Products of Mersenne31. *)
Theorem C186_packed_mersenne31_mul : forall a b,
  (lanes_in 8 mersenne31 a -> lanes_in 8 mersenne31 b -> lanes_are 8 mersenne31 (mersenne_mul (set1 mersenne31) a b) (fun i => a i * b i)) /\
  (lanes_in 16 mersenne31 a -> lanes_in 16 mersenne31 b -> lanes_are 16 mersenne31 (mersenne_mul_512 (set1 mersenne31) a b) (fun i => a i * b i)) /\
  (lanes_in 4 mersenne31 a -> lanes_in 4 mersenne31 b -> lanes_are 4 mersenne31 (mersenne_mul_neon (set1 mersenne31) a b) (fun i => a i * b i)).
Proof. exact packed_mersenne. Qed.
Print Assumptions C186_packed_mersenne31_mul.
Example C186_nonvacuous : let a := fun i => mersenne31 - 1 - Z.of_nat i in
  lanes_in 16 mersenne31 a /\ map (mersenne_mul (set1 mersenne31) a a) [0%nat; 3%nat] = [1; 16] /\
  map (mersenne_mul_512 (set1 mersenne31) a a) [1%nat; 2%nat] = [4; 9] /\ map (mersenne_mul_neon (set1 mersenne31) a a) [1%nat; 3%nat] = [4; 16].
Proof. cbv zeta. split; [intros i Hi; unfold mersenne31; lia|]. repeat split; vm_compute; reflexivity. Qed.

(** C187. Inverse and InverseInPlace of a packed value: never the failed CHECK; the lanes are inverted, zero lanes stay zero. *)
Theorem C187_packed_inverse : forall (K : fld) (values : list K),
  packed_inverse f0 f1 fmul (fun x => if feqb x f0 then None else Some (finv x)) (fun x => feqb x f0) (fun x => feqb x f1) values
    = Some (map (fun v => if feqb v f0 then f0 else finv v) values) /\
  packed_inverse_in_place f0 f1 fmul (fun x => if feqb x f0 then None else Some (finv x)) (fun x => feqb x f0) (fun x => feqb x f1) values
    = Some (map (fun v => if feqb v f0 then f0 else finv v) values).
Proof. exact packed_inverse_spec. Qed.
Print Assumptions C187_packed_inverse.
Theorem C187_packed_inverse_mul : forall (K : fld) (values : list K), Forall (fun v => v <> f0) values ->
  exists inv, packed_inverse f0 f1 fmul (fun x => if feqb x f0 then None else Some (finv x)) (fun x => feqb x f0) (fun x => feqb x f1) values = Some inv /\
    Forall2 (fun v i => fmul v i = f1) values inv.
Proof. exact packed_inverse_mul. Qed.
Print Assumptions C187_packed_inverse_mul.
Example C187_nonvacuous :
  let f := (mkz 7 (prime_check_sound 7 eq_refl) : Z -> F7) in
  option_map (map (zval 7)) (packed_inverse (F:=F7) f0 f1 fmul (fun x => if feqb x f0 then None else Some (finv x)) (fun x => feqb x f0) (fun x => feqb x f1) [f 3; f 0; f 2; f 6])
    = Some [5; 0; 4; 6].
Proof. vm_compute. reflexivity. Qed.

(** C188. The claim "a packed value is reported as having no inverse when a lane has none" is false: Inverse returns a value,
    and the product with it is not one. *)
Theorem C188_packed_zero_lane_refuted : exists values inv : list F7,
  packed_inverse f0 f1 fmul (fun x => if feqb x f0 then None else Some (finv x)) (fun x => feqb x f0) (fun x => feqb x f1) values = Some inv /\
  (exists v, In v values /\ @feqb F7 v f0 = true) /\ ~ Forall2 (fun v i => fmul v i = f1) values inv.
Proof. exact packed_inverse_zero. Qed.
Print Assumptions C188_packed_zero_lane_refuted.

(** C189. A packed value made from a 32-bit integer. *)
Theorem C189_packed_constructor : forall n p v, Z.odd p = true -> 2 < p < 2 ^ 31 -> 0 <= v < 2 ^ 32 -> lanes_represent n p (packed_of_mont p v) (fun _ => v).
Proof. exact packed_construct. Qed.
Print Assumptions C189_packed_constructor.
Theorem C189_packed_mersenne31_constructor_partial : forall n v, 0 <= v < mersenne31 -> lanes_are n mersenne31 (packed_of_mersenne v) (fun _ => v).
Proof. exact packed_construct_mersenne. Qed.
Print Assumptions C189_packed_mersenne31_constructor_partial.
Theorem C189_packed_mersenne31_constructor_refuted : exists v, 0 <= v < 2 ^ 32 /\ ~ lanes_are 4 mersenne31 (packed_of_mersenne v) (fun _ => v) /\
  ~ lanes_in 4 mersenne31 (packed_of_mersenne v).
Proof. exact packed_construct_wrong. Qed.
Print Assumptions C189_packed_mersenne31_constructor_refuted.
Example C189_nonvacuous : map (sfm_value 2013265921) [packed_of_mont 2013265921 4294967295 0%nat] = [4294967295 mod 2013265921] /\ packed_of_mersenne 12 3%nat = 12.
Proof. split; vm_compute; reflexivity. Qed.
