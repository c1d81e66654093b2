(** Property theorems C66 for base/bits.h. *)
From Coq Require Import ZArith List Bool Lia.
From Verif Require Import BitsModel BitsExtra.
Open Scope Z_scope.
Local Ltac ands := cbv zeta; repeat match goal with |- _ /\ _ => split end.

Theorem C66_is_power_of_two : forall v, is_power_of_two v = true <-> exists k, 0 <= k /\ v = 2 ^ k.
Proof. exact is_pow2. Qed.
Print Assumptions C66_is_power_of_two.

(** AlignDown/AlignUp give the nearest multiple on either side. *)
Theorem C66_align_down : forall w x k, 0 <= k < w -> 0 <= x < 2 ^ w ->
  let r := align_down w x (2 ^ k) in (2 ^ k | r) /\ r <= x < r + 2 ^ k.
Proof. exact align_down_nearest. Qed.
Print Assumptions C66_align_down.
Theorem C66_align_up : forall w x k, 0 <= k < w -> 0 <= x -> x + 2 ^ k <= 2 ^ w ->
  let r := align_up w x (2 ^ k) in (2 ^ k | r) /\ r - 2 ^ k < x <= r.
Proof. exact align_up_nearest. Qed.
Print Assumptions C66_align_up.

Theorem C66_log2_floor : forall w n, 0 < n < 2 ^ Z.of_nat w ->
  2 ^ log2_floor w n <= n < 2 ^ (log2_floor w n + 1).
Proof. exact floor_bounds. Qed.
Print Assumptions C66_log2_floor.
Theorem C66_log2_ceiling : forall w n, 0 < n < 2 ^ Z.of_nat w ->
  0 <= log2_ceiling w n /\ n <= 2 ^ log2_ceiling w n /\ (1 < n -> 2 ^ (log2_ceiling w n - 1) < n).
Proof. exact ceiling_bounds. Qed.
Print Assumptions C66_log2_ceiling.
Theorem C66_log2_zero : forall w, (0 < w)%nat ->
  log2_floor w 0 = -1 /\ log2_ceiling w 0 = -1 /\ safe_log2_ceiling w 0 = 0.
Proof. exact log2_zero. Qed.
Print Assumptions C66_log2_zero.
(** CheckedLog2 inverts the power of two and aborts on everything else. *)
Theorem C66_checked_log2 : forall w n, 0 <= n < 2 ^ Z.of_nat w ->
  match checked_log2 w n with
  | Some k => 0 <= k /\ n = 2 ^ k
  | None => ~ exists k, 0 <= k /\ n = 2 ^ k
  end.
Proof. exact checked_exact. Qed.
Print Assumptions C66_checked_log2.

(** ReverseBitsLen(x, k) mirrors the lowest k bits, for 1 <= k <= 64; it is an involution. *)
Theorem C66_reverse_bits_partial : forall k x, (0 < k <= 64)%nat -> 0 <= x < 2 ^ Z.of_nat k ->
  exists r, reverse_bits_len x (Z.of_nat k) = Some r /\ 0 <= r < 2 ^ Z.of_nat k /\
    (forall i, 0 <= i < Z.of_nat k -> Z.testbit r i = Z.testbit x (Z.of_nat k - 1 - i)) /\
    reverse_bits_len r (Z.of_nat k) = Some x.
Proof. exact reverse_mirror. Qed.
Print Assumptions C66_reverse_bits_partial.
(** Missing: k = 0, where the code shifts a 64-bit word by 64 (undefined). *)
Theorem C66_reverse_zero_bits_refuted : forall x, reverse_bits_len x 0 = None.
Proof. exact reverse_zero. Qed.
Print Assumptions C66_reverse_zero_bits_refuted.

Example C66_nonvacuous :
  align_down 32 1000 64 = 960 /\ align_up 32 1000 64 = 1024 /\ log2_floor 32 1000 = 9 /\ log2_ceiling 32 1000 = 10 /\
  checked_log2 64 1024 = Some 10 /\ checked_log2 64 1000 = None /\ reverse_bits_len 6 4 = Some 6 /\ reverse_bits_len 3 5 = Some 24.
Proof. ands; vm_compute; reflexivity. Qed.
