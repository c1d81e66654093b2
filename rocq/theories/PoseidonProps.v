(** Poseidon and Poseidon2: what a user of crypto/hashes/sponge relies on. PoseidonSpec.v defines matrices and their products ([mv], [nonsingular], [inverts]), the permutations of the two papers
    ([poseidon], [poseidon2]), [is_mds] and the matrices of Poseidon2 ([external_matrix], [m4_horizen], [m4_plonky3], [ones_with_diagonal]). *)
From Coq Require Import ZArith Znumtheory List Bool Arith Lia.
From Verif Require Import Field Zp SmallFieldModel SmallFieldSpec CosetProps PoseidonModel PoseidonSpec PoseidonProof PoseidonProof3 PoseidonProof4 PoseidonProof5 PoseidonProof6 PoseidonExtra.
Import ListNotations.
Open Scope nat_scope.

(** The permutation with the optimised constants and the sparse matrices is the permutation of the paper. [junk] is what the uninitialised rows of the optimised constants hold, [inv] the matrix
    inversion of the library. *)
Theorem C174_optimised_permutation : forall (K : fld) (inv : nat -> pmat K -> pmat K) (n h rp : nat) (alpha : Z) (ark mds junk : pmat K),
  2 <= n -> 1 <= h -> (0 <= alpha < 2 ^ 32)%Z -> inverts inv n -> inverts inv (n - 1) -> nonsingular n mds -> nonsingular (n - 1) (fun i j => mds (S i) (S j)) ->
  exists c, create_config inv n (2 * h) rp ark mds junk = Some c /\
    forall x, exists y, permute n (2 * h) rp alpha c x = Some y /\ forall i, i < n -> y i = poseidon n (2 * h) rp (Z.to_nat alpha) mds ark x i.
Proof. exact permute_ok. Qed.
Print Assumptions C174_optimised_permutation.
(** Over F13: two elements, two full and three partial rounds, x^5, the Cauchy matrix of (1, 2) and (3, 5). *)
Definition xs13 : pvec F13 := fun i => match i with 0 => g13 1 | _ => g13 2 end.
Definition ys13 : pvec F13 := fun i => match i with 0 => g13 3 | _ => g13 5 end.
Definition mds13 : pmat F13 := fun i j => finv (xs13 i + ys13 j)%fld.
Definition ark13 : pmat F13 := fun r i => g13 (Z.of_nat (3 * r + 4 * i + 1)).
Definition in13 : pvec F13 := fun i => match i with 0 => g13 7 | _ => g13 11 end.
Definition show13 (n : nat) (o : option (pvec F13)) : option (list Z) := option_map (fun v => map (fun i => zval 13 (v i)) (seq 0 n)) o.
Lemma cauchy13 : cauchy_mds 2 xs13 ys13 = Some mds13.
Proof. unfold cauchy_mds. replace (forallb _ _) with true by (symmetry; vm_compute; reflexivity). reflexivity. Qed.
Lemma two_distinct (v : pvec F13) : zval 13 (v 0) <> zval 13 (v 1) -> forall i j, i < 2 -> j < 2 -> v i = v j -> i = j.
Proof. intros H i j Hi Hj E. destruct i as [|[|i]], j as [|[|j]]; try lia; exfalso; apply H; rewrite E; reflexivity. Qed.
Lemma mds13_ok : is_mds 2 mds13 /\ nonsingular 2 mds13 /\ nonsingular (2 - 1) (fun i j => mds13 (S i) (S j)).
Proof. apply (cauchy_use F13 2 xs13 ys13 mds13 cauchy13); apply two_distinct; vm_compute; discriminate. Qed.
Example C174_nonvacuous : inverts (inv_small F13) 2 /\ inverts (inv_small F13) (2 - 1) /\ nonsingular 2 mds13 /\ nonsingular (2 - 1) (fun i j => mds13 (S i) (S j)) /\
  (match create_config (inv_small F13) 2 (2 * 1) 3 ark13 mds13 (fun _ _ => g13 9) with Some c => show13 2 (permute 2 (2 * 1) 3 5 c in13) | None => None end)
    = show13 2 (Some (poseidon 2 (2 * 1) 3 5 mds13 ark13 in13)) /\
  show13 2 (Some (poseidon 2 (2 * 1) 3 5 mds13 ark13 in13)) = Some [7; 3]%Z.
Proof.
  split; [apply inv_small_2|]. split; [apply inv_small_1|]. split; [apply mds13_ok|]. split; [apply mds13_ok|]. split; vm_compute; reflexivity.
Qed.

(** The matrix built from two sampled vectors with different entries is MDS, and so the configuration can be built; it is built unless a sum x_i + y_j is zero. *)
Theorem C175_cauchy_matrix : forall (K : fld) (n : nat) (xs ys : pvec K),
  (forall m, cauchy_mds n xs ys = Some m -> (forall i j, i < n -> j < n -> xs i = xs j -> i = j) -> (forall i j, i < n -> j < n -> ys i = ys j -> i = j) ->
     is_mds n m /\ nonsingular n m /\ nonsingular (n - 1) (fun i j => m (S i) (S j))) /\
  (cauchy_mds n xs ys = None <-> exists i j, i < n /\ j < n /\ (xs i + ys j)%fld = f0).
Proof. exact cauchy_full. Qed.
Print Assumptions C175_cauchy_matrix.
Example C175_nonvacuous : cauchy_mds 2 xs13 ys13 = Some mds13 /\ is_mds 2 mds13 /\ cauchy_mds 1 xs13 (fun _ => g13 12) = None.
Proof. split; [exact cauchy13|]. split; [apply mds13_ok|reflexivity]. Qed.

(** Two states with the same image under Permute are the same, if x^alpha is a bijection of the field. *)
Theorem C176_permute_injective : forall (p : nat) (Hp : prime (Z.of_nat p)) (inv : nat -> pmat (Zp (Z.of_nat p) Hp) -> pmat (Zp (Z.of_nat p) Hp)) (n h rp : nat) (alpha : Z)
    (ark mds junk : pmat (Zp (Z.of_nat p) Hp)) (c : pconfig (Zp (Z.of_nat p) Hp)) (x y u v : pvec (Zp (Z.of_nat p) Hp)),
  2 <= n -> 1 <= h -> (0 < alpha < 2 ^ 32)%Z -> inverts inv n -> inverts inv (n - 1) -> nonsingular n mds -> nonsingular (n - 1) (fun i j => mds (S i) (S j)) ->
  Nat.gcd (Z.to_nat alpha) (p - 1) = 1 -> create_config inv n (2 * h) rp ark mds junk = Some c ->
  permute n (2 * h) rp alpha c x = Some u -> permute n (2 * h) rp alpha c y = Some v -> (forall i, i < n -> u i = v i) -> forall i, i < n -> x i = y i.
Proof. exact permute_injective. Qed.
Print Assumptions C176_permute_injective.
(** The instance of C174 with 5 and 12 coprime; with x^3 two states collide. *)
Example C176_nonvacuous : Nat.gcd (Z.to_nat 5) (13 - 1) = 1 /\
  (match create_config (inv_small F13) 2 (2 * 1) 3 ark13 mds13 (fun _ _ => g13 9) with
   | Some c => (show13 2 (permute 2 (2 * 1) 3 5 c in13), show13 2 (permute 2 (2 * 1) 3 5 c xs13)) | None => (None, None) end) = (Some [7; 3], Some [4; 7])%Z /\
  (let x : pvec F13 := fun i => match i with 0 => g13 0 | _ => g13 8 end in let y : pvec F13 := fun i => match i with 0 => g13 2 | _ => g13 8 end in
   match create_config (inv_small F13) 2 (2 * 1) 3 ark13 mds13 (fun _ _ => g13 9) with
   | Some c => show13 2 (permute 2 (2 * 1) 3 3 c x) = show13 2 (permute 2 (2 * 1) 3 3 c y) | None => False end).
Proof. split; [reflexivity|]. split; vm_compute; reflexivity. Qed.

(** Poseidon2: Apply of the external matrix is the product with the matrix of the paper for the width, which is what Construct returns; other widths are refused. The matrix is invertible if the
    characteristic does not divide 2 (5 * 7 for Plonky3) and the number of blocks plus one. *)
Theorem C177_external_matrix : forall (K : fld) (d : vendor) (w : nat),
  let m4 : nat -> nat -> K := match d with Horizen => m4_horizen | Plonky3 => m4_plonky3 end in
  (supported_width w -> forall v, exists y, external_apply d w v = Some y /\ forall i, i < w -> y i = mv w (external_matrix m4 w) v i) /\
  (supported_width w -> exists m, external_construct d w = Some m /\ forall i j, i < w -> j < w -> m i j = external_matrix m4 w i j) /\
  (~ supported_width w -> forall v : pvec K, external_apply d w v = None /\ external_construct (K := K) d w = None) /\
  (supported_width w -> (match d with Horizen => fnat 2 | Plonky3 => fnat 35 end : K) <> f0 -> (fnat (if Nat.leb w 3 then w + 1 else Nat.div w 4 + 1) : K) <> f0 ->
   nonsingular w (external_matrix m4 w)).
Proof. exact external_full. Qed.
Print Assumptions C177_external_matrix.
Definition v13_of (l : list Z) : pvec F13 := fun i => g13 (nth i l 0%Z).
Example C177_nonvacuous : supported_width 8 /\ supported_width 3 /\ ~ supported_width 6 /\ (fnat 35 : F13) <> f0 /\ (fnat (Nat.div 8 4 + 1) : F13) <> f0 /\
  show13 8 (external_apply Plonky3 8 (v13_of [1; 0; 0; 0; 0; 2; 0; 0]%Z)) = Some [10; 6; 4; 8; 1; 9; 5; 7]%Z /\
  show13 4 (external_apply Horizen 4 (v13_of [1; 0; 0; 0]%Z)) = Some [5; 4; 1; 1]%Z.
Proof.
  split; [split; [lia|right; exists 2; lia]|]. split; [split; [lia|left; lia]|]. split; [intros [_ [H|[q H]]]; lia|].
  split; [intros E; apply (f_equal (zval 13)) in E; vm_compute in E; discriminate|]. split; [intros E; apply (f_equal (zval 13)) in E; vm_compute in E; discriminate|].
  split; vm_compute; reflexivity.
Qed.

(** Poseidon2: Apply of the internal matrix is the product with the matrix of ones whose diagonal is the given vector plus one. It is invertible if no entry of the vector is zero and the sum of the
    inverses is not -1. *)
Theorem C178_internal_matrix : forall (K : fld) (w : nat) (d : pvec K),
  (forall v i, i < w -> internal_apply w d v i = mv w (ones_with_diagonal (fun i => d i + f1)%fld) v i) /\
  ((forall i, i < w -> d i <> f0) -> (f1 + fsum (map (fun i => finv (d i)) (seq 0 w)))%fld <> f0 -> nonsingular w (ones_with_diagonal (fun i => d i + f1)%fld)).
Proof. intros K w d. exact (conj (internal_ok K w d) (diagonal_nonsingular K w d)). Qed.
Print Assumptions C178_internal_matrix.
Example C178_nonvacuous : show13 3 (Some (internal_apply 3 (v13_of [1; 2; 3]%Z) (v13_of [4; 5; 6]%Z))) = Some [6; 12; 7]%Z /\
  (forall i, i < 3 -> v13_of [1; 2; 3]%Z i <> f0) /\ (f1 + fsum (map (fun i => finv (v13_of [1; 2; 3]%Z i)) (seq 0 3)))%fld <> f0.
Proof.
  split; [vm_compute; reflexivity|]. split; [|intros E; apply (f_equal (zval 13)) in E; vm_compute in E; discriminate].
  intros i Hi E. apply (f_equal (zval 13)) in E. destruct i as [|[|[|i]]]; [vm_compute in E; discriminate..|lia].
Qed.

(** The two versions for small fields agree. On scalars, with stored values and shifts: for a field in Montgomery form the values decoded from the result, times 2^32, are those of the matrix of ones
    with diagonal -1, 1 + 2^s_1, ...; for Mersenne31 there is no factor. On packed fields the same with the factor 2^-32 made by RawOne. *)
Theorem C179_small_fields :
  (forall (p : Z) (v shifts : list Z), Z.odd p = true -> (2 < p < 2 ^ 31)%Z -> v <> [] -> in_range p v -> Forall (fun s => 0 <= s <= 31)%Z shifts ->
     length v <= S (length shifts) -> (Z.of_nat (length v) < 2 ^ 31)%Z ->
     exists out, p3_apply_mont p v shifts = Some out /\ length out = length v /\
       forall i x, nth_error v i = Some x -> exists y, nth_error out i = Some y /\ (0 <= y < p)%Z /\
         ((sfm_value p y * 2 ^ 32) mod p = (zsum (map (sfm_value p) v) + (match i with O => -2 | S i => 2 ^ nth i shifts 0 end) * sfm_value p x) mod p)%Z) /\
  (forall v shifts : list Z, v <> [] -> in_range mersenne31 v -> Forall (fun s => 0 <= s <= 30)%Z shifts -> length v <= S (length shifts) -> (Z.of_nat (length v) < 2 ^ 30)%Z ->
     exists out, p3_apply_plain mersenne31 v shifts = Some out /\ length out = length v /\
       forall i x, nth_error v i = Some x -> exists y, nth_error out i = Some y /\ (0 <= y < mersenne31)%Z /\
         (y mod mersenne31 = (zsum v + (match i with O => -2 | S i => 2 ^ nth i shifts 0 end) * x) mod mersenne31)%Z) /\
  (forall (K : fld) (r two32 : K) (w : nat) (d v : pvec K) (i : nat), (r * two32)%fld = f1 -> i < w ->
     (internal_apply_packed (Some r) w d v i * two32)%fld = (fsum (map v (seq 0 w)) + d i * v i)%fld /\
     internal_apply_packed None w d v i = (fsum (map v (seq 0 w)) + d i * v i)%fld).
Proof. exact (conj p3_mont_decoded (conj p3_plain_ok packed_ok)). Qed.
Print Assumptions C179_small_fields.
(** The parameters of BabyBear with 16 elements and of Mersenne31 with 24. *)
Definition babybear_shifts : list Z := [0; 1; 2; 3; 4; 5; 6; 7; 8; 9; 10; 11; 12; 13; 15]%Z.
Definition mersenne31_shifts : list Z := [0; 1; 2; 3; 4; 5; 6; 7; 8; 9; 10; 11; 12; 13; 14; 15; 16; 17; 18; 19; 20; 21; 22]%Z.
Example C179_nonvacuous : Z.odd 2013265921 = true /\ in_range 2013265921 (map (fun i => 2013265920 - Z.of_nat i)%Z (seq 0 16)) /\ Forall (fun s => 0 <= s <= 31)%Z babybear_shifts /\
  Forall (fun s => 0 <= s <= 30)%Z mersenne31_shifts /\
  p3_apply_plain mersenne31 [5; mersenne31 - 1; 7]%Z [3; 4]%Z = Some [1; 3; 123]%Z.
Proof.
  split; [reflexivity|]. split; [apply Forall_forall; intros x Hx; apply in_map_iff in Hx; destruct Hx as (i & <- & Hi); apply in_seq in Hi; lia|].
  split; [repeat constructor; lia|]. split; [repeat constructor; lia|reflexivity].
Qed.

(** Permute of Poseidon2 is the permutation of the paper and is injective. *)
Theorem C180_poseidon2_permutation :
  (forall (K : fld) (d : vendor) (w rf rp : nat) (alpha : Z) (diag : pvec K) (ark : pmat K) (v : pvec K), supported_width w -> (0 <= alpha < 2 ^ 32)%Z ->
     exists y, permute2 d (internal_apply w diag) w rf rp alpha ark v = Some y /\
       forall i, i < w -> y i = poseidon2 w rf rp (Z.to_nat alpha) (external_matrix (match d with Horizen => m4_horizen | Plonky3 => m4_plonky3 end) w)
                                  (ones_with_diagonal (fun i => diag i + f1)%fld) ark v i) /\
  (forall (p : nat) (Hp : prime (Z.of_nat p)) (d : vendor) (w rf rp : nat) (alpha : Z) (ark : pmat (Zp (Z.of_nat p) Hp)) (diag x y u v : pvec (Zp (Z.of_nat p) Hp)),
     supported_width w -> (0 < alpha < 2 ^ 32)%Z -> Nat.gcd (Z.to_nat alpha) (p - 1) = 1 ->
     (match d with Horizen => fnat 2 | Plonky3 => fnat 35 end : Zp (Z.of_nat p) Hp) <> f0 -> (fnat (if Nat.leb w 3 then w + 1 else Nat.div w 4 + 1) : Zp (Z.of_nat p) Hp) <> f0 ->
     nonsingular w (ones_with_diagonal (fun i => diag i + f1)%fld) ->
     permute2 d (internal_apply w diag) w rf rp alpha ark x = Some u -> permute2 d (internal_apply w diag) w rf rp alpha ark y = Some v ->
     (forall i, i < w -> u i = v i) -> forall i, i < w -> x i = y i).
Proof. exact (conj permute2_full permute2_injective). Qed.
Print Assumptions C180_poseidon2_permutation.
Example C180_nonvacuous : supported_width 3 /\ (fnat (3 + 1) : F13) <> f0 /\
  show13 3 (permute2 Plonky3 (internal_apply 3 (v13_of [1; 2; 3]%Z)) 3 4 2 5 ark13 (v13_of [4; 5; 6]%Z)) = Some [10; 2; 1]%Z.
Proof.
  split; [split; [lia|left; lia]|]. split; [intros E; apply (f_equal (zval 13)) in E; vm_compute in E; discriminate|]. vm_compute; reflexivity.
Qed.

(** On scalars over Mersenne31 a build with DCHECKs should accept every state; it does not: the low 31 bits of an intermediate sum can be the modulus, and a field element is built from them. *)
Theorem C181_mersenne_dcheck_refuted : exists (v sums : list Z), length v = 24 /\ in_range mersenne31 v /\
  p3_apply mersenne31 (fun s => s) v mersenne31_shifts = Some sums /\ forallb (from_u62_dcheck mersenne31) sums = false.
Proof.
  exists (1 :: 0 :: repeat 0 21 ++ [mersenne31 - 1])%Z. eexists. split; [reflexivity|]. split; [|split; [reflexivity|reflexivity]].
  unfold in_range, mersenne31. repeat (constructor; [lia|]). constructor.
Qed.
Print Assumptions C181_mersenne_dcheck_refuted.

(** A configuration read back from what was written for it should permute as the original; for a scalar small field it does not: the shifts are not written, the two configurations compare equal,
    and applying the internal matrix with the copy reads past the end of the empty shifts. *)
Theorem C182_config_copy_refuted : exists (c : p2config) (v out : list Z), c = p2_create_shifts babybear_shifts [] /\ length v = 16 /\ in_range 2013265921 v /\
  p2_mix_partial 2013265921 c v = Some out /\
  let c' := p2_read (p2_write c) in p2_eqb c c' = true /\ p2_mix_partial 2013265921 c' v = None.
Proof.
  exists (p2_create_shifts babybear_shifts []), (repeat 1%Z 16). eexists. split; [reflexivity|]. split; [reflexivity|].
  split; [unfold in_range; repeat (constructor; [lia|]); constructor|]. split; [vm_compute; reflexivity|]. split; reflexivity.
Qed.
Print Assumptions C182_config_copy_refuted.
