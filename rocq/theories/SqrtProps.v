(** Property theorems C210-C216 and C221: square roots, the Legendre symbol, decompression, roots of unity.
    SqrtSpec.v defines [is_square], [on_curve], [even_rep] (the canonical representative is even) and [fermat_number] (p = 2^k + 1);
    FFTSpec.v defines [primitive_root]. The gen_* constants are those that the field generator computes for the modulus. *)
From Coq Require Import ZArith Znumtheory List Bool Arith Lia.
From Verif Require Import Field Zp BigIntModel BigIntSpec MixedModel FFTSpec SqrtModel SqrtSpec SqrtProof SqrtProof2 SqrtProof3 SqrtGold PointSerSpec SqrtExtra.
Import ListNotations.
Open Scope fld_scope.

(** SquareRoot by Tonelli-Shanks: it ends after at most kTwoAdicity rounds of each loop, finds a root of every square and answers
    "no root" exactly for the others. [g] is the configured subgroup generator, which has to be a non-square. *)
Theorem C210_tonelli_shanks : forall (p : Z) (Hp : prime p) (n : nat) (e : list Z) (g : Z) (fuel : nat) (a : Zp p Hp),
  (2 < p)%Z -> ~ fermat_number p -> limbs64 n e -> val64 e = gen_trace_minus_one_div_two p -> ~ is_square (mkz p Hp g : Zp p Hp) ->
  (gen_two_adicity p <= Z.of_nat fuel)%Z ->
  exists r, tonelli_shanks fuel (Z.to_nat (gen_two_adicity p)) e (mkz p Hp (gen_two_adic_root p g) : Zp p Hp) a = Some r /\
    match r with Some x => x * x = a | None => ~ is_square a end.
Proof. exact (fun p Hp n e g fuel a H2 NF He Ve Hg Hf => tonelli_gen p Hp H2 n e g fuel a NF He Ve Hg Hf). Qed.
Print Assumptions C210_tonelli_shanks.

(** The generated root is a primitive root of unity of the full two-power order. *)
Theorem C210_generated_root : forall (p : Z) (Hp : prime p) (g : Z), (2 < p)%Z -> ~ fermat_number p -> ~ is_square (mkz p Hp g : Zp p Hp) ->
  (exists t, Z.odd t = true /\ (p - 1 = 2 ^ gen_two_adicity p * t)%Z) /\
  primitive_root (mkz p Hp (gen_two_adic_root p g) : Zp p Hp) (2 ^ Z.to_nat (gen_two_adicity p)).
Proof. exact generated_root. Qed.
Print Assumptions C210_generated_root.

Notation m13 x := (mkz 13 (prime_check_sound 13 eq_refl) x : F13).
Example C210_nonvacuous :
  map (fun a => option_map (option_map (zval 13)) (tonelli_shanks (K := F13) 2 2 [1%Z] (m13 8) (m13 a))) [0; 1; 2; 3; 4; 10; 12]%Z =
    [Some (Some 0); Some (Some 1); Some None; Some (Some 9); Some (Some 11); Some (Some 7); Some (Some 8)]%Z /\
  gen_trace_minus_one_div_two 13 = 1%Z /\ gen_two_adicity 13 = 2%Z /\ gen_two_adic_root 13 2 = 8%Z.
Proof. repeat split; vm_compute; reflexivity. Qed.

(** SquareRoot by Shanks for p = 3 mod 4. *)
Theorem C211_shanks : forall (p : Z) (Hp : prime p) (n : nat) (e : list Z) (a : Zp p Hp),
  (2 < p)%Z -> limbs64 n e -> val64 e = gen_modulus_plus_one_div_four p -> (p mod 4 = 3)%Z ->
  match shanks e a with Some x => x * x = a | None => ~ is_square a end.
Proof. exact (fun p Hp n e a H2 He Ve H4 => shanks_spec p Hp H2 n e a He Ve H4). Qed.
Print Assumptions C211_shanks.

Example C211_nonvacuous :
  map (fun a => option_map (zval 7) (shanks (K := F7) [2%Z] (m7 a))) [0; 1; 2; 3; 4; 5; 6]%Z = [Some 0; Some 1; Some 4; None; Some 2; None; None]%Z /\
  gen_modulus_plus_one_div_four 7 = 2%Z.
Proof. repeat split; vm_compute; reflexivity. Qed.

(** Legendre is 0 for zero, 1 for the non-zero squares, -1 for the non-squares, and multiplicative. *)
Theorem C212_legendre : forall (p : Z) (Hp : prime p) (n : nat) (e : list Z) (a : Zp p Hp),
  (2 < p)%Z -> limbs64 n e -> val64 e = gen_modulus_minus_one_div_two p ->
  (legendre e a = 0%Z <-> a = 0) /\ (legendre e a = 1%Z <-> a <> 0 /\ is_square a) /\ (legendre e a = (-1)%Z <-> ~ is_square a).
Proof. exact (fun p Hp n e a H2 He Ve => legendre_spec p Hp H2 n e a He Ve). Qed.
Print Assumptions C212_legendre.

Theorem C212_multiplicative : forall (p : Z) (Hp : prime p) (n : nat) (e : list Z) (a b : Zp p Hp),
  (2 < p)%Z -> limbs64 n e -> val64 e = gen_modulus_minus_one_div_two p -> legendre e (a * b) = (legendre e a * legendre e b)%Z.
Proof. exact (fun p Hp n e a b H2 He Ve => legendre_mul p Hp H2 n e a b He Ve). Qed.
Print Assumptions C212_multiplicative.

Example C212_nonvacuous : map (fun a => legendre (K := F13) [6%Z] (m13 a)) [0; 1; 2; 3; 4; 5; 6]%Z = [0; 1; -1; 1; 1; -1; -1]%Z /\ gen_modulus_minus_one_div_two 13 = 6%Z.
Proof. split; vm_compute; reflexivity. Qed.

(** GetYsFromX returns the two points with this x, or fails if there is none. The second y is odd unless it is 0. *)
Theorem C213_ys_from_x : forall (p : Z) (Hp : prime p) (sqrt : Zp p Hp -> option (Zp p Hp)) (a_is_zero : bool) (ca cb x : Zp p Hp),
  (2 < p)%Z -> square_root sqrt -> (a_is_zero = true -> ca = 0) ->
  match get_ys sqrt (even_rep p) a_is_zero ca cb x with
  | Some (ey, oy) => on_curve ca cb x ey /\ oy = - ey /\ even_rep p ey = true /\ (even_rep p oy = true -> oy = 0) /\ (forall y, on_curve ca cb x y -> y = ey \/ y = oy)
  | None => forall y, ~ on_curve ca cb x y
  end.
Proof. exact (fun p Hp sqrt az ca cb x H2 HS Haz => get_ys_spec p Hp H2 sqrt HS az ca cb x Haz). Qed.
Print Assumptions C213_ys_from_x.

(** CreateFromX: the point has the requested x and parity (unless y = 0), and x with the parity of y determines the point. *)
Theorem C213_create_from_x : forall (p : Z) (Hp : prime p) (sqrt : Zp p Hp -> option (Zp p Hp)) (a_is_zero : bool) (ca cb x : Zp p Hp) (pick_odd : bool),
  (2 < p)%Z -> square_root sqrt -> (a_is_zero = true -> ca = 0) ->
  match create_from_x sqrt (even_rep p) a_is_zero ca cb x pick_odd with
  | Some (x', y) => x' = x /\ on_curve ca cb x y /\ (even_rep p y = negb pick_odd \/ y = 0)
  | None => forall y, ~ on_curve ca cb x y
  end.
Proof. exact (fun p Hp sqrt az ca cb x o H2 HS Haz => create_spec_x p Hp H2 sqrt HS az ca cb x o Haz). Qed.
Print Assumptions C213_create_from_x.

Theorem C213_roundtrip : forall (p : Z) (Hp : prime p) (sqrt : Zp p Hp -> option (Zp p Hp)) (a_is_zero : bool) (ca cb x y : Zp p Hp),
  (2 < p)%Z -> square_root sqrt -> (a_is_zero = true -> ca = 0) -> on_curve ca cb x y ->
  create_from_x sqrt (even_rep p) a_is_zero ca cb x (negb (even_rep p y)) = Some (x, y).
Proof. exact (fun p Hp sqrt az ca cb x y H2 HS Haz HO => create_roundtrip p Hp H2 sqrt HS az ca cb x y Haz HO). Qed.
Print Assumptions C213_roundtrip.

Example C213_nonvacuous : square_root (K := F7) (shanks [2%Z]) /\
  map (fun x => option_map (fun yy => (zval 7 (fst yy), zval 7 (snd yy))) (get_ys (K := F7) (shanks [2%Z]) (even_rep 7) false (m7 1) (m7 3) (m7 x))) [0; 4; 5; 6]%Z =
    [None; Some (6, 1); Some (0, 0); Some (6, 1)]%Z.
Proof. split; [exact sqrt7|vm_compute; reflexivity]. Qed.

(** "If pick_odd is set it chooses an odd y": false for the points of order two. *)
Theorem C214_pick_odd_refuted : exists (p : Z) (Hp : prime p) (sqrt : Zp p Hp -> option (Zp p Hp)) (ca cb x y : Zp p Hp),
  (2 < p)%Z /\ square_root sqrt /\ on_curve ca cb x y /\
  option_map (fun xy => even_rep p (snd xy)) (create_from_x sqrt (even_rep p) true ca cb x true) = Some true.
Proof. exact pick_odd_even. Qed.
Print Assumptions C214_pick_odd_refuted.

(** GetRootOfUnity(n) with a large subgroup: a primitive n-th root for n = 2^i q^j within the adicities, false for any other n. *)
Theorem C215_root_of_unity_large : forall (K : fld) (s : nat) (q : Z) (a : nat) (root : K) (n : Z),
  Z.odd q = true -> (3 <= q < 2 ^ 64)%Z -> (0 < n < 2 ^ 64)%Z -> primitive_root root (2 ^ s * Z.to_nat q ^ a) ->
  match get_root_large s q a root n with
  | Some w => primitive_root w (Z.to_nat n)
  | None => ~ exists i j, (i <= s)%nat /\ (j <= a)%nat /\ n = (2 ^ Z.of_nat i * q ^ Z.of_nat j)%Z
  end.
Proof. exact root_large_spec. Qed.
Print Assumptions C215_root_of_unity_large.

(** The generated large subgroup root (before it is converted to Montgomery form) has the order that GetRootOfUnity needs. *)
Theorem C215_generated_large_root : forall (p : Z) (Hp : prime p) (g b a : Z),
  (2 < p)%Z -> ~ fermat_number p -> (0 < b)%Z -> (0 <= a)%Z -> (b ^ a | compute_trace 2 (p - 1))%Z ->
  primitive_root (mkz p Hp g : Zp p Hp) (Z.to_nat (p - 1)) ->
  primitive_root (mkz p Hp (gen_large_root p g b a) : Zp p Hp) (2 ^ Z.to_nat (gen_two_adicity p) * Z.to_nat b ^ Z.to_nat a).
Proof. exact (fun p Hp g b a H2 => large_root_primitive p Hp H2 g b a). Qed.
Print Assumptions C215_generated_large_root.

Example C215_nonvacuous :
  map (fun n => option_map (zval 13) (get_root_large (K := F13) 2 3 1 (m13 2) n)) [1; 2; 3; 4; 5; 6; 8; 9; 12]%Z =
    [Some 1; Some 12; Some 3; Some 8; None; Some 4; None; None; Some 2]%Z /\ gen_large_root 13 2 3 1 = 2%Z.
Proof. split; vm_compute; reflexivity. Qed.

(** Goldilocks on x86-64 (no Montgomery form): the generator writes the large subgroup root in Montgomery form all the same, and it is read as it is.
    GetRootOfUnity(3) succeeds and returns 1, which is not a primitive cube root of unity. *)
Theorem C216_goldilocks_refuted : exists w : Gold,
  get_root_large 32 3 1 (mkz gold gold_prime (to_mont 64 gold (gen_large_root gold 7 3 1)) : Gold) 3 = Some w /\ ~ primitive_root w 3.
Proof. exact (ex_intro _ (f1 : Gold) (conj gold_three (fun H => proj2 H 1%nat (conj (le_n 1) (le_S 2 2 (le_n 2))) (fpow_one Gold 1)))). Qed.
Print Assumptions C216_goldilocks_refuted.

(** The powers of two come out right, because 2^64 has order 3. *)
Theorem C216_goldilocks_powers_of_two : forall i, (i <= 32)%nat -> exists w : Gold,
  get_root_large 32 3 1 (mkz gold gold_prime (to_mont 64 gold (gen_large_root gold 7 3 1)) : Gold) (2 ^ Z.of_nat i) = Some w /\ primitive_root w (2 ^ i).
Proof. exact gold_pow2. Qed.
Print Assumptions C216_goldilocks_powers_of_two.

(** For p = 2^k + 1 the generated trace is 0, the generated root 1, and SquareRoot never returns for a square other than 0 and 1. *)
Theorem C221_fermat_prime_refuted : forall (p : Z) (Hp : prime p) (n : nat) (e : list Z) (g : Z) (fuel : nat) (a : Zp p Hp),
  (2 < p)%Z -> fermat_number p -> limbs64 n e -> val64 e = gen_trace_minus_one_div_two p -> is_square a -> a <> 0 -> a <> 1 ->
  gen_two_adic_root p g = 1%Z /\ tonelli_shanks fuel (Z.to_nat (gen_two_adicity p)) e (mkz p Hp (gen_two_adic_root p g) : Zp p Hp) a = None.
Proof. exact (fun p Hp n e g fuel a H2 => tonelli_fermat p Hp H2 n e g fuel a). Qed.
Print Assumptions C221_fermat_prime_refuted.

(** Before Init() the root is 0, and SquareRoot never returns for a square whose T-th power is not 1. *)
Theorem C221_uninitialised_refuted : forall (p : Z) (Hp : prime p) (n : nat) (e : list Z) (fuel : nat) (a : Zp p Hp),
  (2 < p)%Z -> ~ fermat_number p -> limbs64 n e -> val64 e = gen_trace_minus_one_div_two p ->
  is_square a -> a <> 0 -> a ^ Z.to_nat (compute_trace 2 (p - 1)) <> 1 ->
  tonelli_shanks fuel (Z.to_nat (gen_two_adicity p)) e (0 : Zp p Hp) a = None.
Proof. exact (fun p Hp n e fuel a H2 => tonelli_uninit p Hp H2 n e fuel a). Qed.
Print Assumptions C221_uninitialised_refuted.

Notation m17 x := (mkz 17 (prime_check_sound 17 eq_refl) x : F17).
Example C221_nonvacuous : fermat_number 17 /\ (m17 2 * m17 2 = m17 4) /\ gen_trace_minus_one_div_two 17 = 0%Z /\ gen_two_adicity 17 = 4%Z /\
  option_map (option_map (zval 17)) (tonelli_shanks (K := F17) 100 4 [0%Z] (m17 1) (m17 4)) = None /\
  option_map (option_map (zval 13)) (tonelli_shanks (K := F13) 100 2 [1%Z] (m13 0) (m13 4)) = None /\ zval 13 ((m13 4) ^ Z.to_nat (compute_trace 2 12)) = 12%Z.
Proof. split; [exists 4%Z; split; [lia|reflexivity]|]. split; [apply zp_eq; reflexivity|]. repeat split; vm_compute; reflexivity. Qed.
