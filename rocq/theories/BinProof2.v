(** The operations of the code on values are the operations of the tower. *)
From Coq Require Import NArith List Bool Lia.
From Verif Require Import BinModel BinSpec BinProof.
Import ListNotations.
Open Scope N_scope.

Lemma bits_S j : bits (S j) = bits j + bits j.
Proof. unfold bits. rewrite Nat2N.inj_succ, N.pow_succ_r'. lia. Qed.
Lemma values_bits k x : values k x <-> x < 2 ^ bits k.
Proof. reflexivity. Qed.

Lemma compose_eq j l h : b_compose j l h = h * 2 ^ bits j + l.
Proof. unfold b_compose. rewrite N.shiftl_mul_pow2. reflexivity. Qed.
Lemma lo_eq j x : b_lo j x = x mod 2 ^ bits j.
Proof. apply N.land_ones. Qed.
Lemma hi_eq j x : b_hi j x = x / 2 ^ bits j.
Proof. apply N.shiftr_div_pow2. Qed.
Lemma pow_pos n : 2 ^ n <> 0.
Proof. apply N.pow_nonzero. discriminate. Qed.
Lemma lo_compose j l h : l < 2 ^ bits j -> b_lo j (b_compose j l h) = l.
Proof.
  intros. rewrite lo_eq, compose_eq, N.add_comm, N.mod_add by apply pow_pos. apply N.mod_small. assumption.
Qed.
Lemma hi_compose j l h : l < 2 ^ bits j -> b_hi j (b_compose j l h) = h.
Proof.
  intros. rewrite hi_eq, compose_eq, N.div_add_l by apply pow_pos. rewrite N.div_small by assumption. apply N.add_0_r.
Qed.
Lemma compose_lo_hi j x : b_compose j (b_lo j x) (b_hi j x) = x.
Proof. rewrite compose_eq, lo_eq, hi_eq, N.mul_comm. symmetry. apply N.div_mod, pow_pos. Qed.
Lemma lo_bound j x : b_lo j x < 2 ^ bits j.
Proof. rewrite lo_eq. apply N.mod_lt, pow_pos. Qed.
Lemma hi_bound j x : x < 2 ^ bits (S j) -> b_hi j x < 2 ^ bits j.
Proof.
  intros H. rewrite hi_eq. apply N.div_lt_upper_bound; [apply pow_pos |].
  rewrite bits_S, N.pow_add_r in H. exact H.
Qed.
Lemma compose_bound j l h : l < 2 ^ bits j -> h < 2 ^ bits j -> b_compose j l h < 2 ^ bits (S j).
Proof. intros. rewrite compose_eq, bits_S, N.pow_add_r. nia. Qed.
Lemma lxor_bound n a b : a < 2 ^ n -> b < 2 ^ n -> N.lxor a b < 2 ^ n.
Proof.
  intros Ha Hb. rewrite <- (N.mod_small a (2 ^ n)), <- (N.mod_small b (2 ^ n)) by assumption.
  rewrite <- !N.land_ones.
  assert (E : N.lxor (N.land a (N.ones n)) (N.land b (N.ones n)) = N.land (N.lxor a b) (N.ones n)).
  { apply N.bits_inj. intros i. rewrite !N.lxor_spec, !N.land_spec, N.lxor_spec.
    destruct (N.testbit a i), (N.testbit b i), (N.testbit (N.ones n) i); reflexivity. }
  rewrite E, N.land_ones. apply N.mod_lt, pow_pos.
Qed.
Lemma lo_lxor j a b : b_lo j (N.lxor a b) = N.lxor (b_lo j a) (b_lo j b).
Proof.
  unfold b_lo. apply N.bits_inj. intros i. rewrite !N.lxor_spec, !N.land_spec, N.lxor_spec.
  destruct (N.testbit a i), (N.testbit b i), (N.testbit (N.ones (bits j)) i); reflexivity.
Qed.
Lemma hi_lxor j a b : b_hi j (N.lxor a b) = N.lxor (b_hi j a) (b_hi j b).
Proof. unfold b_hi. apply N.shiftr_lxor. Qed.

Fixpoint enc (k : nat) : car (tower k) -> N :=
  match k with
  | O => fun b : bool => if b then 1 else 0
  | S j => fun x : car (tower j) * car (tower j) => b_compose j (enc j (fst x)) (enc j (snd x))
  end.
Fixpoint dec (k : nat) (n : N) : car (tower k) :=
  match k with
  | O => (n =? 1) : bool
  | S j => (dec j (b_lo j n), dec j (b_hi j n))
  end.
Lemma enc_bound k x : enc k x < 2 ^ bits k.
Proof.
  induction k as [|j IH].
  - change (2 ^ bits 0) with 2. destruct x; cbn; lia.
  - cbn [enc]. apply compose_bound; apply IH.
Qed.
Lemma dec_enc k x : dec k (enc k x) = x.
Proof.
  induction k as [|j IH].
  - destruct x; reflexivity.
  - cbn [enc dec]. destruct x as [a b]. cbn [fst snd].
    rewrite lo_compose, hi_compose by apply enc_bound. rewrite !IH. reflexivity.
Qed.
Lemma enc_dec k n : n < 2 ^ bits k -> enc k (dec k n) = n.
Proof.
  revert n. induction k as [|j IH]; intros n H.
  - change (2 ^ bits 0) with 2 in H. cbn [dec enc]. destruct (N.eqb_spec n 1); lia.
  - cbn [enc dec fst snd]. rewrite !IH by (apply lo_bound || apply hi_bound, H). apply compose_lo_hi.
Qed.
Lemma enc_inj k x y : enc k x = enc k y -> x = y.
Proof. intros E. rewrite <- (dec_enc k x), E. apply dec_enc. Qed.
Lemma compose_add j l h l' h' : l < 2 ^ bits j -> l' < 2 ^ bits j ->
  b_add (b_compose j l h) (b_compose j l' h') = b_compose j (b_add l l') (b_add h h').
Proof.
  intros. unfold b_add. rewrite <- (compose_lo_hi j (N.lxor (b_compose j l h) (b_compose j l' h'))).
  rewrite lo_lxor, hi_lxor, !lo_compose, !hi_compose by assumption. reflexivity.
Qed.
Lemma enc_add k x y : enc k (oadd (tower k) x y) = b_add (enc k x) (enc k y).
Proof.
  induction k as [|j IH].
  - destruct x, y; reflexivity.
  - cbn [enc]. rewrite compose_add by apply enc_bound. destruct x, y. cbn [fst snd tower ext oadd eadd]. rewrite !IH. reflexivity.
Qed.
Lemma enc_0 k : enc k (o0 (tower k)) = 0.
Proof. induction k as [|j IH]; [reflexivity |]. cbn [tower ext o0 enc fst snd]. rewrite !IH, compose_eq. lia. Qed.
Lemma enc_1 k : enc k (o1 (tower k)) = 1.
Proof. induction k as [|j IH]; [reflexivity |]. cbn [tower ext o1 enc fst snd]. rewrite IH, enc_0, compose_eq. lia. Qed.
Lemma enc_alpha_val k : enc k (oalpha (tower k)) = generator k.
Proof.
  destruct k as [|j]; [reflexivity |]. cbn [tower ext oalpha enc fst snd generator]. rewrite enc_0, enc_1, compose_eq.
  unfold bits. lia.
Qed.

(** ** The tables. *)
Definition nums (n : nat) : list N := map N.of_nat (seq 0 n).
Lemma in_nums n x : x < N.of_nat n -> In x (nums n).
Proof. intros. apply in_map_iff. exists (N.to_nat x). split; [apply N2Nat.id | apply in_seq; lia]. Qed.
Lemma all_nums n (f : N -> bool) : forallb f (nums n) = true -> forall x, x < N.of_nat n -> f x = true.
Proof. intros H x Hx. rewrite forallb_forall in H. apply H, in_nums, Hx. Qed.

Notation T3 := (tower 3).
Definition g3 : car T3 := dec 3 19.
Lemma exp_step : forall i, i < 255 ->
  look exp_table (if 254 <? i + 1 then i + 1 - 255 else i + 1) =? enc 3 (omul T3 g3 (dec 3 (look exp_table i))) = true.
Proof. apply (all_nums 255). vm_compute. reflexivity. Qed.
Lemma exp_lt : forall i, i < 256 -> look exp_table i <? 256 = true.
Proof. apply (all_nums 256). vm_compute. reflexivity. Qed.
Lemma exp_log : forall x, x < 256 ->
  (x =? 0) || ((look exp_table (look log_table x) =? x) && (look log_table x <? 255)) = true.
Proof. apply (all_nums 256). vm_compute. reflexivity. Qed.
Lemma alpha_tab : forall x, x < 256 -> look alpha_table x =? enc 3 (omul T3 (oalpha T3) (dec 3 x)) = true.
Proof. apply (all_nums 256). vm_compute. reflexivity. Qed.
Lemma square_tab : forall x, x < 256 -> look square_table x =? enc 3 (omul T3 (dec 3 x) (dec 3 x)) = true.
Proof. apply (all_nums 256). vm_compute. reflexivity. Qed.
Lemma inverse_tab : forall x, x < 256 ->
  (x =? 0) || ((look inverse_table x <? 256) && (enc 3 (omul T3 (dec 3 x) (dec 3 (look inverse_table x))) =? 1)) = true.
Proof. apply (all_nums 256). vm_compute. reflexivity. Qed.
Lemma inverse_tab1 : forall x, x < 4 ->
  (x =? 0) || ((look inverse_table x <? 4) && (enc 1 (omul (tower 1) (dec 1 x) (dec 1 (look inverse_table x))) =? 1)) = true.
Proof. apply (all_nums 4). vm_compute. reflexivity. Qed.
Lemma inverse_tab2 : forall x, x < 16 ->
  (x =? 0) || ((look inverse_table x <? 16) && (enc 2 (omul (tower 2) (dec 2 x) (dec 2 (look inverse_table x))) =? 1)) = true.
Proof. apply (all_nums 16). vm_compute. reflexivity. Qed.
Lemma mul_tab1 : forall x, x < 4 ->
  forallb (fun y => do_binary_mul x y =? enc 1 (omul (tower 1) (dec 1 x) (dec 1 y))) (nums 4) = true.
Proof. apply (all_nums 4). vm_compute. reflexivity. Qed.
Lemma mul_tab2 : forall x, x < 16 ->
  forallb (fun y => do_binary_mul x y =? enc 2 (omul (tower 2) (dec 2 x) (dec 2 y))) (nums 16) = true.
Proof. apply (all_nums 16). vm_compute. reflexivity. Qed.
