(** Lemmas in the shape of the property theorems, and concrete cases. *)
From Coq Require Import ZArith Znumtheory Zpow_facts List Bool Arith Lia.
From Verif Require Import Field Zp BigIntModel BigIntSpec FFTSpec SqrtModel SqrtSpec SqrtProof SqrtProof2 SqrtProof3 SqrtGold PointSerModel PointSerSpec PointSerProof.
Import ListNotations.
Open Scope Z_scope.

Lemma adicity_odd p : prime p -> 2 < p -> exists t, Z.odd t = true /\ p - 1 = 2 ^ gen_two_adicity p * t /\ 0 < gen_two_adicity p.
Proof.
  intros Hp H2. destruct (decomp p Hp H2) as (T & S0 & E & G0 & _). exists (Z.of_nat (2 * T + 1)). split; [|split; [|lia]].
  - rewrite Nat2Z.inj_add, Nat2Z.inj_mul. change (Z.of_nat 1) with 1. change (Z.of_nat 2) with 2. rewrite Z.odd_add, Z.odd_mul. reflexivity.
  - apply (f_equal Z.of_nat) in E. rewrite Z2Nat.id in E by lia. rewrite Nat2Z.inj_mul, Nat2Z.inj_pow, Z2Nat.id in E by lia. exact E.
Qed.
Lemma generated_root p (Hp : prime p) g : 2 < p -> ~ fermat_number p -> ~ is_square (mkz p Hp g : Zp p Hp) ->
  (exists t, Z.odd t = true /\ p - 1 = 2 ^ gen_two_adicity p * t) /\
  primitive_root (mkz p Hp (gen_two_adic_root p g) : Zp p Hp) (2 ^ Z.to_nat (gen_two_adicity p)).
Proof.
  intros H2 NF Hg. split; [destruct (adicity_odd p Hp H2) as (t & O & E & _); exists t; auto|]. exact (two_adic_root_primitive p Hp H2 g NF Hg).
Qed.

Lemma spare_legacy p n : 0 < p < 2 ^ (64 * Z.of_nat n) -> check_bits true (Z.log2 p + 1) = true -> p < 2 ^ (64 * Z.of_nat n - 1).
Proof.
  intros Hp H. unfold check_bits in H. apply Z.leb_le in H. pose proof (Z.log2_spec p ltac:(lia)) as [L1 L2].
  assert (Z.log2 p < 64 * Z.of_nat n) by (apply Z.log2_lt_pow2; lia).
  assert (Z.log2 p + 1 <> 64 * Z.of_nat n).
  { intros E. rewrite E in H. replace (64 * Z.of_nat n) with ((8 * Z.of_nat n) * 8) in H by lia. rewrite Z.mod_mul in H by lia. lia. }
  eapply Z.lt_le_trans; [exact L2|]. apply Z.pow_le_mono_r; lia.
Qed.

Definition p63 : Z := 87 * 2 ^ 56 + 1.
Lemma p63_prime : prime p63.
Proof.
  apply (lucas p63 5 [2; 3; 29]); [reflexivity| |vm_compute; reflexivity|].
  - intros r Pr D. change (p63 - 1) with (2 ^ 56 * (3 * 29)) in D. apply prime_mult in D; [|exact Pr]. destruct D as [D|D].
    { left. symmetry. apply (prime_power_prime r 2 56); [lia|exact Pr|exact prime_2|exact D]. }
    apply prime_mult in D; [|exact Pr]. destruct D as [D|D]; [right; left|do 2 right; left]; symmetry; apply prime_div_prime; try exact Pr; try exact D.
    + exact (prime_check_sound 3 eq_refl).
    + exact (prime_check_sound 29 eq_refl).
  - intros q Hq. repeat (destruct Hq as [<-|Hq]; [vm_compute; reflexivity|]). destruct Hq.
Qed.
Section Ring.
  Variable K : fld.
  Add Field Ksq6 : (fld_theory K).
  Lemma through (x y : K) : on_curve f0 (fsub (fmul y y) (fmul (fmul x x) x)) x y.
  Proof. unfold on_curve. ring. Qed.
End Ring.
Lemma check_bits_wrong : exists (p : Z) (Hp : prime p) (n : nat) (cb x y : Zp p Hp),
  2 < p < 2 ^ (64 * Z.of_nat n) /\ (0 < n)%nat /\ check_bits false (Z.log2 p + 1) = true /\ on_curve f0 cb x y /\
  forall sqrt, read_point p Hp n sqrt true f0 cb false (write_point p Hp n false x y) <> Some (x, y).
Proof.
  exists p63, p63_prime, 1%nat. set (x := mkz p63 p63_prime (2 ^ 62) : Zp p63 p63_prime). set (y := mkz p63 p63_prime 2 : Zp p63 p63_prime).
  exists (fsub (fmul y y) (fmul (fmul x x) x)), x, y. split; [split; reflexivity|]. split; [lia|]. split; [vm_compute; reflexivity|]. split; [apply through|].
  assert (EX : zval p63 x = 2 ^ 62) by reflexivity.
  intros sqrt. apply new_overflow; try reflexivity; try lia; rewrite EX; vm_compute; congruence.
Qed.
Lemma check_bits_refuses : exists (p : Z) (n : nat), prime p /\ 2 < p <= 2 ^ (64 * Z.of_nat n - 2) /\ (0 < n)%nat /\ check_bits false (Z.log2 p + 1) = false.
Proof. exists 131, 1%nat. split; [exact (prime_check_sound 131 eq_refl)|]. split; [split; [lia|vm_compute; congruence]|]. split; [lia|vm_compute; reflexivity]. Qed.

(** Z/7: squares, curves with and without a point of order two. *)
Definition m7 (x : Z) : F7 := mkz 7 (prime_check_sound 7 eq_refl) x.
Lemma sqrt7 : square_root (K := F7) (shanks [2]).
Proof. intros a. apply (shanks_spec 7 (prime_check_sound 7 eq_refl) ltac:(lia) 1); [split; [reflexivity|repeat constructor; lia]|reflexivity|reflexivity]. Qed.
Lemma order_two : on_curve (K := F7) f0 (m7 1) (m7 3) f0 /\
  option_map (fun xy => zval 7 (snd xy)) (create_from_x (K := F7) (shanks [2]) (even_rep 7) true f0 (m7 1) (m7 3) true) = Some 0.
Proof. split; [apply zp_eq; vm_compute; reflexivity|vm_compute; reflexivity]. Qed.
Lemma pick_odd_even : exists (p : Z) (Hp : prime p) (sqrt : Zp p Hp -> option (Zp p Hp)) (ca cb x y : Zp p Hp),
  2 < p /\ square_root sqrt /\ on_curve ca cb x y /\
  option_map (fun xy => even_rep p (snd xy)) (create_from_x sqrt (even_rep p) true ca cb x true) = Some true.
Proof.
  exists 7, (prime_check_sound 7 eq_refl), (shanks [2]), f0, (m7 1), (m7 3), f0. split; [lia|]. split; [exact sqrt7|]. split; [exact (proj1 order_two)|]. vm_compute. reflexivity.
Qed.
