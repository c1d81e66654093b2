(** Properties C262-C265: the generator of the Poseidon constants. *)
From Coq Require Import ZArith List Bool Lia.
From Verif Require Import BigIntModel BigIntSpec GrainModel GrainSpec GrainProof GrainProof2 GrainProof3 GrainExtra.
Import ListNotations.
Open Scope nat_scope.

(** ** C262: the key stream *)
Theorem C262_grain_stream : forall c b, grain b -> initial c b -> exists s, construct c = Done s /\
  forall n, exists s', update_n n s = Done (map b (seq 240 n), s').
Proof. exact stream_ok. Qed.
Print Assumptions C262_grain_stream.

(** Every configuration has one such sequence. *)
Theorem C262_grain_sequence_unique : forall c, exists b, (grain b /\ initial c b) /\
  forall b', grain b' -> initial c b' -> forall i, b' i = b i.
Proof. exact sequence_unique. Qed.
Print Assumptions C262_grain_sequence_unique.

(** Generators that agree on 80 consecutive bits were made from configurations that agree up to the widths of
    their entries. *)
Theorem C262_grain_distinct_partial : forall c1 c2 s1 s2 n l1 l2 last t1 t2,
  construct c1 = Done s1 -> construct c2 = Done s2 ->
  length l1 = n -> length l2 = n -> length last = 80 ->
  update_n (n + 80) s1 = Done (l1 ++ last, t1) -> update_n (n + 80) s2 = Done (l2 ++ last, t2) ->
  c_inverse c1 = c_inverse c2 /\ (c_prime_bits c1 mod 2 ^ 12 = c_prime_bits c2 mod 2 ^ 12)%Z /\
  (c_state_len c1 mod 2 ^ 12 = c_state_len c2 mod 2 ^ 12)%Z /\ (c_full c1 mod 2 ^ 10 = c_full c2 mod 2 ^ 10)%Z /\
  (c_partial c1 mod 2 ^ 10 = c_partial c2 mod 2 ^ 10)%Z.
Proof. exact distinct_configs. Qed.
Print Assumptions C262_grain_distinct_partial.

(** Wider entries are cut without notice: two state lengths, one generator. *)
Theorem C262_grain_wide_config_refuted : exists c1 c2, c_state_len c1 <> c_state_len c2 /\
  construct c1 = construct c2 /\ (0 <= c_state_len c1 < 2 ^ 64 /\ 0 <= c_state_len c2 < 2 ^ 64)%Z.
Proof. exact truncated. Qed.
Print Assumptions C262_grain_wide_config_refuted.

Definition test_config : config :=
  {| c_inverse := false; c_prime_bits := 255; c_state_len := 3; c_full := 8; c_partial := 31 |}.
(** The first bits of the unit test GetBits. *)
Example C262_nonvacuous : exists s s', construct test_config = Done s /\
  get_bits 80 20 18 s = Done ([false; true; true; true; false; true; true; true; true; true; true; false; false;
                               true; true; true; true; false; false; false], s').
Proof. do 2 eexists. split; [vm_compute; reflexivity|]. vm_compute. reflexivity. Qed.

(** ** C263: GetBits *)
(** Any sequence of requests that fit the bitset is answered, the inner loop being left within 80 rounds; together the
    answers are the bits contributed by the stream, in order, the rest of each bitset being zero. *)
Theorem C263_get_bits : forall c b fuel m requests, grain b -> initial c b -> 80 <= fuel ->
  Forall (fun n => n <= m) requests ->
  exists s ls u s', construct c = Done s /\
    get_bits_many fuel m requests s = Done (map (fun l => l ++ repeat false (m - length l)) ls, s') /\
    map (@length bool) ls = requests /\ selected b 240 (concat ls) u.
Proof. exact bits_ok. Qed.
Print Assumptions C263_get_bits.

(** The bits contributed are determined by their number. *)
Theorem C263_selection_unique : forall b t l1 u1, selected b t l1 u1 -> forall l2 u2, selected b t l2 u2 ->
  length l1 = length l2 -> l1 = l2 /\ u1 = u2.
Proof. exact selected_unique. Qed.
Print Assumptions C263_selection_unique.

(** In a sequence of this recurrence that is not zero, of any 80 pairs one contributes. *)
Theorem C263_pairs_contribute : forall b i0 t, grain b -> b i0 = true -> exists j, j < 80 /\ b (t + 2 * j) = true.
Proof. exact some_pair. Qed.
Print Assumptions C263_pairs_contribute.

(** A request larger than the bitset throws. *)
Theorem C263_get_bits_too_many : forall c fuel m requests n, 80 <= fuel -> Forall (fun n => n <= m) requests -> m < n ->
  exists s, construct c = Done s /\ get_bits_many fuel m (requests ++ [n]) s = Stop.
Proof. exact bits_too_many. Qed.
Print Assumptions C263_get_bits_too_many.

Example C263_nonvacuous : exists s s', construct test_config = Done s /\
  get_bits_many 80 4 [3; 0; 4] s = Done ([[false; true; true; false]; [false; false; false; false];
                                          [true; false; true; true]], s') /\ get_bits 80 4 5 s = Stop.
Proof. do 2 eexists. split; [vm_compute; reflexivity|]. split; [vm_compute; reflexivity|]. vm_compute. reflexivity. Qed.

(** ** C264: field elements *)
(** The elements are the integers of the stream that are below the modulus, in order, none left out; the loop goes on only
    while the integers are not below it, and nothing else can go wrong. *)
Theorem C264_rejection_sampling_partial : forall c b f tries fuel n, grain b -> initial c b -> 80 <= fuel ->
  f_bits f <= 64 * f_limbs f -> c_prime_bits c = Z.of_nat (f_bits f) -> exists s, construct c = Done s /\
  ((exists vs u s', rejection_sampling tries fuel f n s = Done (filter (in_field f) vs, s') /\
      integers b (f_bits f) 240 vs u /\ length (filter (in_field f) vs) = n /\
      (forall ws v, vs = ws ++ [v] -> (v < f_modulus f)%Z)) \/
   (rejection_sampling tries fuel f n s = Pending /\ exists vs ws u, integers b (f_bits f) 240 (vs ++ ws) u /\
      length ws = tries /\ Forall (fun v => (f_modulus f <= v)%Z) ws)).
Proof. exact rejection. Qed.
Print Assumptions C264_rejection_sampling_partial.

Theorem C264_mod_p : forall c b f fuel n, grain b -> initial c b -> 80 <= fuel ->
  f_bits f <= 64 * f_limbs f -> c_prime_bits c = Z.of_nat (f_bits f) -> exists s vs u s', construct c = Done s /\
  mod_p fuel f n s = Done (map (fun v => (v mod f_modulus f)%Z) vs, s') /\ integers b (f_bits f) 240 vs u /\ length vs = n.
Proof. exact mod_p_values. Qed.
Print Assumptions C264_mod_p.

(** A configuration for another number of bits is refused. *)
Theorem C264_wrong_bits_refused : forall c f tries fuel n, c_prime_bits c <> Z.of_nat (f_bits f) ->
  exists s, construct c = Done s /\ rejection_sampling tries fuel f n s = Stop /\ mod_p fuel f n s = Stop.
Proof. exact rejection_mismatch. Qed.
Print Assumptions C264_wrong_bits_refused.

Example C264_nonvacuous : exists s s' s'',
  construct {| c_inverse := true; c_prime_bits := 3; c_state_len := 3; c_full := 8; c_partial := 31 |} = Done s /\
  rejection_sampling 9 80 {| f_bits := 3; f_limbs := 1; f_modulus := 5 |} 3 s = Done ([3; 0; 3]%Z, s') /\
  mod_p 80 {| f_bits := 3; f_limbs := 1; f_modulus := 5 |} 6 s = Done ([2; 3; 2; 0; 3; 2]%Z, s'').
Proof. do 3 eexists. split; [vm_compute; reflexivity|]. split; [vm_compute; reflexivity|]. vm_compute. reflexivity. Qed.

(** ** C265: the constants of Poseidon *)
Theorem C265_ark_and_mds_draws_partial : forall c b f tries fuel skips, grain b -> initial c b -> 80 <= fuel ->
  f_bits f <= 64 * f_limbs f -> c_prime_bits c = Z.of_nat (f_bits f) ->
  let t := Z.to_nat (c_state_len c) in
  (exists ark xs ys vs skipped vx vy u,
    find_ark_xs_ys tries fuel f c skips = Done (ark, xs, ys) /\
    integers b (f_bits f) 240 (vs ++ skipped ++ vx ++ vy) u /\
    concat ark = filter (in_field f) vs /\ (forall ws v, vs = ws ++ [v] -> (v < f_modulus f)%Z) /\
    length ark = Z.to_nat (c_full c + c_partial c) /\ Forall (fun row => length row = t) ark /\
    length skipped = skips * (2 * t) /\ length vx = t /\ length vy = t /\
    xs = map (fun v => (v mod f_modulus f)%Z) vx /\ ys = map (fun v => (v mod f_modulus f)%Z) vy) \/
  (find_ark_xs_ys tries fuel f c skips = Pending /\ exists vs ws u, integers b (f_bits f) 240 (vs ++ ws) u /\
    length ws = tries /\ Forall (fun v => (f_modulus f <= v)%Z) ws).
Proof. exact find_ok. Qed.
Print Assumptions C265_ark_and_mds_draws_partial.

Definition small_field : field_params := {| f_bits := 5; f_limbs := 1; f_modulus := 17 |}.
Definition small_config : config :=
  {| c_inverse := false; c_prime_bits := 5; c_state_len := 2; c_full := 2; c_partial := 1 |}.
(** The integers drawn are 24 0 23 21 12 8 10 18 17 5 31 10 | 28 16 4 19 | 22 24 | 9 22. *)
Example C265_nonvacuous : find_ark_xs_ys 5 80 small_field small_config 1 =
  Done ([[0; 12]; [8; 10]; [5; 10]], [5; 7], [9; 5])%Z.
Proof. vm_compute. reflexivity. Qed.
