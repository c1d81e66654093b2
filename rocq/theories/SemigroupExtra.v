(** Corollaries of the semigroup proofs in the form the properties use. *)
From Coq Require Import ZArith List Bool Lia Ring Field Permutation.
From Coq Require Import ZifyBool ZifyNat.
From Verif Require Import BigIntModel BigIntSpec BitsModel BitsSpec BitsProof ParallelizeModel.
From Verif Require Import SemigroupModel SemigroupSpec SemigroupProof Field.
Import ListNotations.
Open Scope Z_scope.

Lemma pow_table_enough (G : Type) one mul (sq : G -> G) n e g m : monoid one mul -> (forall x, sq x = mul x x) ->
  limbs64 n e ->
  pow_with_table one mul (map (fun i => times one mul (2 ^ i) g) (seq 0 m)) e =
    if val64 e <? 2 ^ Z.of_nat m then Some (do_pow one mul sq e g) else None.
Proof.
  intros HM Hsq He. rewrite (do_pow_spec one mul sq HM Hsq n e g He).
  apply (pow_with_table_spec one mul sq HM Hsq n); auto.
Qed.

Lemma bitrev_parallel_any_order (G : Type) one mul (sq : G -> G) is_one k g c threads zero :
  monoid one mul -> (forall x y, mul x y = mul y x) -> (forall x, sq x = mul x x) ->
  (forall x, is_one x = true <-> x = one) ->
  (0 < k < 63)%nat -> 0 < threads < 2 ^ 63 ->
  exists ws ret,
    get_bitrev_powers_writes one mul sq is_one threads (2 ^ k) g c = Some ws /\
    get_bitrev_powers_serial mul zero (2 ^ k) g c = Some ret /\
    length ret = (2 ^ k)%nat /\
    (forall i, (i < 2 ^ k)%nat -> exists j, reverse_bits_len (Z.of_nat i) (Z.of_nat k) = Some j /\
       nth_error ret (Z.to_nat j) = Some (mul c (times one mul i g))) /\
    (forall order, Permutation order ws -> apply_writes order (repeat zero (2 ^ k)) = Some ret).
Proof.
  intros HM Hc Hsq Hone Hk Ht.
  destruct (bitrev_parallel_spec one mul sq HM Hsq is_one Hone Hc k g c Hk threads zero Ht) as (ws & E & H).
  exists ws, (bitrev_list one mul k g c). split; [exact E|]. split; [apply (bitrev_serial_spec one mul sq HM Hsq is_one Hone Hc k g c Hk)|].
  unfold bitrev_list at 1 2. rewrite map_length, seq_length. split; [reflexivity|]. split; [|exact H].
  intros i Hi. assert (E2 : Z.of_nat (2 ^ k) = 2 ^ Z.of_nat k) by (rewrite Nat2Z.inj_pow; reflexivity).
  exists (rev_bits k (Z.of_nat i)). split; [apply reverse_bits_len_spec; lia|].
  pose proof (rev_bits_range k (Z.of_nat i) ltac:(lia)) as R.
  rewrite nth_error_map. rewrite (nth_error_nth' _ 0%nat) by (rewrite seq_length; lia).
  rewrite seq_nth by lia. cbn [option_map Nat.add]. rewrite Z2Nat.id by lia.
  rewrite rev_bits_involutive by lia. rewrite Nat2Z.id. reflexivity.
Qed.

Lemma bitrev_size_one_undefined (G : Type) one mul (sq : G -> G) is_one (g c zero : G) threads :
  0 < threads < 2 ^ 63 ->
  get_bitrev_powers_serial mul zero 1 g c = None /\
  get_bitrev_powers_writes one mul sq is_one threads 1 g c = None.
Proof.
  intros Ht. split; [reflexivity|]. unfold get_bitrev_powers_writes. 
  change (checked_log2 64 (Z.of_nat 1)) with (Some 0).
  change (Z.of_nat 1) with 1. unfold num_elements_per_thread, size_per_thread.
  unfold trunc at 2. rewrite (Z.mod_small (1 + threads)) by lia.
  unfold trunc. rewrite Z.mod_small by lia. replace ((1 + threads - 1) / threads) with 1.
  - cbn. destruct (is_one c); reflexivity.
  - replace (1 + threads - 1) with threads by lia. symmetry. apply Z.div_same. lia.
Qed.

Lemma times_fpow (K : fld) (x : K) n : times f1 fmul n x = fpow x n.
Proof. induction n; cbn; congruence. Qed.
Lemma fld_monoid (K : fld) : monoid (f1 : K) fmul.
Proof. pose proof (fld_theory K) as T. destruct T as [[]]. constructor; intros; auto. rewrite Rmul_comm; auto. Qed.
Lemma fld_comm (K : fld) (x y : K) : fmul x y = fmul y x.
Proof. pose proof (fld_theory K) as T. destruct T as [[]]. auto. Qed.

Section Lin.
  Variable K : fld.
  Add Field Kf : (fld_theory K).
  Open Scope fld_scope.
  Lemma lc_forward (r : K) values :
    linear_combination_forward 0 fadd (fun x => x * r) values =
    fsum (map (fun i => nth i values 0 * r ^ (length values - 1 - i)) (seq 0 (length values))).
  Proof. unfold linear_combination_forward. rewrite (lc_fold K r). ring. Qed.
  Lemma lc_backward (r : K) values :
    linear_combination_backward 0 fadd (fun x => x * r) values =
    fsum (map (fun i => nth i values 0 * r ^ i) (seq 0 (length values))).
  Proof.
    unfold linear_combination_backward. rewrite (lc_fold K r). rewrite rev_length, lc_rev. ring.
  Qed.
  Lemma lc_in_place (r : K) forward values : 
    linear_combination_in_place fadd (fun x => x * r) forward values =
    if Nat.eqb (length values) 0 then None
    else Some (if forward then linear_combination_forward 0 fadd (fun x => x * r) values
               else linear_combination_backward 0 fadd (fun x => x * r) values).
  Proof.
    unfold linear_combination_in_place, linear_combination_forward, linear_combination_backward.
    assert (G : forall l : list K, match l with [] => None | v :: l' => Some (fold_left (fun ret v => ret * r + v) l' v) end =
                if Nat.eqb (length l) 0 then None else Some (fold_left (fun ret v => ret * r + v) l 0)).
    { destruct l as [|v l]; cbn; [reflexivity|]. do 2 f_equal. ring. }
    destruct forward; rewrite G, ?rev_length; reflexivity.
  Qed.
End Lin.

Lemma batch_mismatch (K : fld) zero one mul inverse iz io threads in_place (gs inv : list K) coeff :
  length gs <> length inv ->
  batch_inverse zero one mul inverse iz io threads in_place gs inv coeff = None /\
  batch_inverse_serial zero one mul inverse iz io in_place gs inv coeff = None.
Proof.
  intros H. unfold batch_inverse, batch_inverse_serial.
  replace (Nat.eqb (length gs) (length inv)) with false by lia. split; reflexivity.
Qed.
Lemma batch_serial (K : fld) in_place (gs inv : list K) coeff :
  length gs = length inv -> (in_place = true -> inv = gs) ->
  batch_inverse_serial f0 f1 fmul (fun x : K => if feqb x f0 then None else Some (finv x))
    (fun x => feqb x f0) (fun x => feqb x f1) in_place gs inv coeff =
  Some (map (fun g => if feqb g f0 then f0 else fmul coeff (finv g)) gs).
Proof.
  intros HL Hin. unfold batch_inverse_serial. replace (Nat.eqb _ _) with true by lia.
  apply (do_batch_inverse_spec K coeff); auto.
Qed.

Lemma batch_many_threads (K : fld) threads in_place (gs inv : list K) coeff zero one mul inverse iz io :
  128 <= threads -> length gs = length inv ->
  batch_inverse zero one mul inverse iz io threads in_place gs inv coeff = None.
Proof.
  intros Ht HL. unfold batch_inverse. replace (Nat.eqb _ _) with true by lia. cbn [negb]. cbv zeta.
  assert (64 <= threads / 2) by (apply Z.div_le_lower_bound; lia).
  replace (64 <=? threads / 2) with true by lia. reflexivity.
Qed.

(** ** Several scalar multiplications at once *)
Lemma combine_nth_error {A B} : forall (a : list A) (b : list B) i x y, nth_error a i = Some x -> nth_error b i = Some y -> nth_error (combine a b) i = Some (x, y).
Proof.
  induction a as [|a0 a IH]; intros [|b0 b] [|i] x y Ha Hb; cbn in *; try discriminate; [congruence|]. apply IH; auto.
Qed.
Lemma multi_scalar {G S} (smul : S -> G -> G) (scalars : list S) (bases outputs : list G) (s : S) (b : G) :
  (match multi_scalar_mul_msmb smul scalars bases outputs with
   | Some r => length scalars = length bases /\ length scalars = length outputs /\ (0 < length scalars)%nat /\ length r = length scalars /\
               forall i x y, nth_error scalars i = Some x -> nth_error bases i = Some y -> nth_error r i = Some (smul x y)
   | None => length scalars <> length bases \/ length scalars <> length outputs \/ length scalars = 0%nat
   end) /\
  (match multi_scalar_mul_mssb smul scalars b outputs with
   | Some r => length scalars = length outputs /\ (0 < length scalars)%nat /\ length r = length scalars /\
               forall i x, nth_error scalars i = Some x -> nth_error r i = Some (smul x b)
   | None => length scalars <> length outputs \/ length scalars = 0%nat
   end) /\
  (match multi_scalar_mul_ssmb smul s bases outputs with
   | Some r => length bases = length outputs /\ (0 < length bases)%nat /\ length r = length bases /\
               forall i y, nth_error bases i = Some y -> nth_error r i = Some (smul s y)
   | None => length bases <> length outputs \/ length bases = 0%nat
   end).
Proof.
  unfold multi_scalar_mul_msmb, multi_scalar_mul_mssb, multi_scalar_mul_ssmb. split; [|split].
  - destruct (Nat.eqb_spec (length scalars) (length bases)) as [E1|E1]; cbn [negb]; [|auto].
    destruct (Nat.eqb_spec (length scalars) (length outputs)) as [E2|E2]; cbn [negb]; [|auto].
    destruct (Nat.eqb_spec (length scalars) 0) as [E3|E3]; [auto|]. split; [auto|]. split; [auto|]. split; [lia|].
    split; [rewrite map_length, combine_length; lia|]. intros i x y Hx Hy. rewrite nth_error_map, (combine_nth_error _ _ _ x y) by auto. reflexivity.
  - destruct (Nat.eqb_spec (length scalars) (length outputs)) as [E2|E2]; cbn [negb]; [|auto].
    destruct (Nat.eqb_spec (length scalars) 0) as [E3|E3]; [auto|]. split; [auto|]. split; [lia|].
    split; [apply map_length|]. intros i x Hx. rewrite nth_error_map, Hx. reflexivity.
  - destruct (Nat.eqb_spec (length bases) (length outputs)) as [E2|E2]; cbn [negb]; [|auto].
    destruct (Nat.eqb_spec (length bases) 0) as [E3|E3]; [auto|]. split; [auto|]. split; [lia|].
    split; [apply map_length|]. intros i x Hx. rewrite nth_error_map, Hx. reflexivity.
Qed.
