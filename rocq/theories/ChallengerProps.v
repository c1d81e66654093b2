(** Property theorems C59, C60 and C98-C101: the challengers and proof of work.
    A transcript is a list of rounds (observations, number of samples); [challenges] (ChallengerSpec.v) says which values are sampled. [None] is undefined behaviour or a failed CHECK. *)
From Coq Require Import ZArith List Bool Lia Arith.
From Verif Require Import SpongeModel ParallelizeModel ChallengerModel ChallengerSpec ChallengerProof ChallengerExtra ChallengerGrind.
Import ListNotations.
Open Scope nat_scope.

(** ** C59: DuplexChallenger. No history of operations is undefined and the buffers keep their bounds; the challenges of every transcript are the lanes, last first, of the states reached by absorbing every block of observations. *)
Theorem C59_every_history_defined : forall {F : Type} (perm : list F -> list F) (R W : nat),
  (forall l, length l = W -> length (perm l) = W) -> 1 <= R -> R <= W ->
  forall (ops : list (op F)) (c : duplex F F),
  length (state c) = W /\ length (input_buffer c) < R /\ length (output_buffer c) <= W ->
  exists ys c', run (duplex_observe perm R W) (duplex_sample perm W) ops c = Some (ys, c') /\
    (length (state c') = W /\ length (input_buffer c') < R /\ length (output_buffer c') <= W) /\
    length ys = length (filter (fun o => match o with Sample => true | _ => false end) ops).
Proof. exact (fun F => duplex_run_valid (F := F)). Qed.
Print Assumptions C59_every_history_defined.

Theorem C59_challenges : forall {F : Type} (perm : list F -> list F) (R W : nat),
  (forall l, length l = W -> length (perm l) = W) -> 1 <= R -> R <= W ->
  forall (rounds : list (list F * nat)) (c : duplex F F),
  length (state c) = W /\ length (input_buffer c) < R /\ length (output_buffer c) <= W -> input_buffer c = [] ->
  Forall (fun r => fst r <> [] /\ 1 <= snd r) rounds ->
  exists c', run (duplex_observe perm R W) (duplex_sample perm W) (concat (map (fun r => map Observe (fst r) ++ repeat Sample (snd r)) rounds)) c =
    Some (challenges (duplex_absorb overwrite perm R) perm (@rev F) W (state c) rounds, c') /\
    (length (state c') = W /\ length (input_buffer c') < R /\ length (output_buffer c') <= W).
Proof. exact (fun F => duplex_rounds (F := F)). Qed.
Print Assumptions C59_challenges.

(** A toy permutation of three lanes: (a, b, c) -> (b, c, a + 2 b + 3 c + 1). *)
Definition toy (l : list nat) : list nat := match l with [a; b; c] => [b; c; a + 2 * b + 3 * c + 1] | _ => l end.
Example C59_nonvacuous :
  let c := mk_duplex [0; 0; 0] [] [] in
  option_map fst (run (duplex_observe toy 2 3) (duplex_sample toy 3) [Observe 5; Observe 6; Observe 7; Sample; Sample; Observe 1; Sample; Sample; Sample; Sample] c) =
    Some [62; 18; 224; 62; 18; 815] /\
  challenges (duplex_absorb overwrite toy 2) toy (@rev nat) 3 [0; 0; 0] [([5; 6; 7], 2); ([1], 4)] = [62; 18; 224; 62; 18; 815].
Proof. vm_compute. auto. Qed.

(** ** C60: proof of work. Every execution of the parallel search ends; the witness is one the verifier's identical challenger accepts (and leaves both challengers in the same state); the search aborts only if no witness of the range is accepted. *)
Theorem C60_grind_every_schedule : forall {F C : Type} (observe : C -> F -> option C) (sample : C -> option (F * C)) (to_u32 : F -> Z) (of_u32 : Z -> F) (succ : F -> F) (bits : Z) (c : C) (from to threads : Z),
  (forall w, exists b c', check_witness observe sample to_u32 bits c w = Some (b, c')) ->
  (forall i, from <= i -> i + 1 < to -> of_u32 (i + 1) = succ (of_u32 i))%Z ->
  (0 < threads < 2 ^ 32)%Z -> (0 <= from <= to)%Z -> (to < 2 ^ 32)%Z ->
  forall n found ws, grind_steps observe sample to_u32 succ bits c n (false, grind_init of_u32 threads from to) (found, ws) ->
  (Z.of_nat n <= 2 * (to - from) + 3 * threads)%Z /\
  ((exists rs, ws = map Done rs) \/ exists s', grind_step observe sample to_u32 succ bits c (found, ws) s') /\
  forall rs, ws = map Done rs ->
    match grind_result observe sample to_u32 of_u32 bits c rs with
    | Some (w, c') => (exists i, (from <= i < to)%Z /\ w = of_u32 i) /\ check_witness observe sample to_u32 bits c w = Some (true, c')
    | None => forall i, (from <= i < to)%Z -> exists c', check_witness observe sample to_u32 bits c (of_u32 i) = Some (false, c')
    end.
Proof. exact (fun F C => grind_every_schedule (F := F) (C := C)). Qed.
Print Assumptions C60_grind_every_schedule.

(** The first hypothesis holds of every duplex challenger. *)
Theorem C60_duplex_check_defined : forall {F : Type} (perm : list F -> list F) (R W : nat) (to_u32 : F -> Z) (bits : Z) (c : duplex F F) (w : F),
  (forall l, length l = W -> length (perm l) = W) -> 1 <= R -> R <= W ->
  length (state c) = W /\ length (input_buffer c) < R /\ length (output_buffer c) <= W ->
  exists b c', check_witness (duplex_observe perm R W) (duplex_sample perm W) to_u32 bits c w = Some (b, c').
Proof. exact (fun F => duplex_check_total (F := F)). Qed.
Print Assumptions C60_duplex_check_defined.

(** Three workers search 1..9 for a witness of two zero bits on the toy challenger; two of them race and both find one; the first in index order (3) is returned although 7 was found first. *)
Definition toyz (l : list Z) : list Z := match l with [a; b; c] => [b; c; (a + 2 * b + 3 * c + 1) mod 11] | _ => l end%Z.
Example C60_nonvacuous :
  let c := mk_duplex [0; 0; 0]%Z [] [] in
  let obs := duplex_observe toyz 2 3 in let smp := duplex_sample toyz 3 in
  grind_init (fun i => i) 3 1 10 = [AtLoad 1 1 4; AtLoad 4 4 7; AtLoad 7 7 10]%Z /\
  exists ws, grind_steps obs smp (fun x => x) Z.succ 2 c 13 (false, grind_init (fun i => i) 3 1 10) (true, ws) /\
    ws = map Done [Some 3; None; Some 7]%Z /\
    option_map fst (grind_result obs smp (fun x => x) (fun i => i) 2 c [Some 3; None; Some 7]%Z) = Some 3%Z.
Proof.
  cbv zeta. split; [vm_compute; reflexivity|]. eexists. split; [|split; vm_compute; reflexivity].
  apply (run_schedule_sound _ _ _ _ _ _ [0; 1; 2; 0; 2; 0; 0; 0; 0; 2; 0; 1; 1]%nat). vm_compute. reflexivity.
Qed.

(** ** C98: for every permutation, the duplex challenger from its initial state gives the same challenges after observing x and after observing x and then 0. *)
Theorem C98_zero_padding_refuted : forall {F : Type} (perm : list F -> list F) (zero x : F) (R W k : nat),
  (forall l, length l = W -> length (perm l) = W) -> 2 <= R -> R <= W -> 1 <= k ->
  let c := mk_duplex (repeat zero W) [] [] in
  exists ys c1 c2,
    run (duplex_observe perm R W) (duplex_sample perm W) (concat (map (fun r => map Observe (fst r) ++ repeat Sample (snd r)) [([x], k)])) c = Some (ys, c1) /\
    run (duplex_observe perm R W) (duplex_sample perm W) (concat (map (fun r => map Observe (fst r) ++ repeat Sample (snd r)) [([x; zero], k)])) c = Some (ys, c2) /\
    length ys = k.
Proof. exact (fun F => duplex_zero_padding (F := F)). Qed.
Print Assumptions C98_zero_padding_refuted.

(** ** C99: HashChallenger: every block of outputs is the hash of the previous block and the observations since. *)
Theorem C99_hash_challenges : forall {F : Type} (hash : list F -> list F) (N : nat), (forall l, length (hash l) = N) -> 1 <= N ->
  forall (rounds : list (list F * nat)) (c : hash_challenger F), Forall (fun r => fst r <> [] /\ 1 <= snd r) rounds ->
  exists c', run (@hash_observe F) (hash_sample hash) (concat (map (fun r => map Observe (fst r) ++ repeat Sample (snd r)) rounds)) c =
    Some (challenges (fun s xs => hash (s ++ xs)) hash (@rev F) N (hash_input c) rounds, c').
Proof. exact (fun F => hash_rounds (F := F)). Qed.
Print Assumptions C99_hash_challenges.

Example C99_nonvacuous :
  let hash l := [fold_left Nat.add l 0; length l] in
  option_map fst (run (@hash_observe nat) (hash_sample hash) [Observe 5; Observe 6; Sample; Sample; Sample; Observe 7; Sample] (mk_hash [] [])) = Some [2; 11; 2; 3] /\
  challenges (fun s xs => hash (s ++ xs)) hash (@rev nat) 2 [] [([5; 6], 3); ([7], 1)] = [2; 11; 2; 3].
Proof. vm_compute. auto. Qed.

(** ** C100: MultiField32Challenger over a small Montgomery field: the same, with groups of N small elements per lane. *)
Theorem C100_multi_every_history_defined : forall (limbs : nat) (P p : Z) (N W : nat) (perm : list Z -> list Z),
  (forall l, length l = W -> length (perm l) = W) -> 1 <= N -> 1 <= W -> N < limbs * 2 ->
  forall (ops : list (op Z)) (c : duplex Z Z),
  length (state c) = W /\ length (input_buffer c) < N * W /\ length (output_buffer c) <= N * W ->
  exists ys c', run (multi_observe limbs P (to_small_montgomery p) N W perm) (multi_sample limbs P (to_small_montgomery p) N W perm) ops c = Some (ys, c') /\
    (length (state c') = W /\ length (input_buffer c') < N * W /\ length (output_buffer c') <= N * W) /\
    length ys = length (filter (fun o => match o with Sample => true | _ => false end) ops).
Proof. exact multi_run_valid. Qed.
Print Assumptions C100_multi_every_history_defined.

Theorem C100_multi_challenges : forall (limbs : nat) (P p : Z) (N W : nat) (perm : list Z -> list Z),
  (forall l, length l = W -> length (perm l) = W) -> 1 <= N -> 1 <= W -> N < limbs * 2 ->
  forall (rounds : list (list Z * nat)) (c : duplex Z Z),
  length (state c) = W /\ length (input_buffer c) < N * W /\ length (output_buffer c) <= N * W -> input_buffer c = [] ->
  Forall (fun r => fst r <> [] /\ 1 <= snd r) rounds ->
  exists c', run (multi_observe limbs P (to_small_montgomery p) N W perm) (multi_sample limbs P (to_small_montgomery p) N W perm)
      (concat (map (fun r => map Observe (fst r) ++ repeat Sample (snd r)) rounds)) c =
    Some (challenges (duplex_absorb (multi_overwrite P N) perm (N * W)) perm (fun l => rev (concat (map (digits64 p N) l))) (N * W) (state c) rounds, c') /\
    (length (state c') = W /\ length (input_buffer c') < N * W /\ length (output_buffer c') <= N * W).
Proof. exact multi_rounds. Qed.
Print Assumptions C100_multi_challenges.

(** Groups of the same length are packed injectively when the big modulus has room for them. *)
Theorem C100_reduce_injective : forall (limbs : nat) (P : Z) (vs ws : list Z), length vs < limbs * 2 -> (2 ^ (32 * Z.of_nat (length vs)) <= P)%Z -> length vs = length ws ->
  Forall (fun v => 0 <= v < 2 ^ 32)%Z vs -> Forall (fun v => 0 <= v < 2 ^ 32)%Z ws ->
  exists a b, reduce limbs P vs = Some a /\ reduce limbs P ws = Some b /\ (0 <= a < P)%Z /\ (a = b -> vs = ws).
Proof. exact reduce_injective. Qed.
Print Assumptions C100_reduce_injective.

Example C100_nonvacuous :
  let P := (2 ^ 127 - 1)%Z in
  reduce 2 P [1; 2; 3]%Z = Some (1 + 2 * 2 ^ 32 + 3 * 2 ^ 64)%Z /\ reduce 2 P [1; 2; 3; 4]%Z = None /\
  split (to_small_montgomery 97) 2 (100 + 98 * 2 ^ 64) = [3; 1]%Z /\
  option_map fst (run (multi_observe 2 P (to_small_montgomery 97) 2 2 (fun l => map (Z.add 1) l)) (multi_sample 2 P (to_small_montgomery 97) 2 2 (fun l => map (Z.add 1) l))
    [Observe 5; Observe 6; Observe 7; Sample; Sample; Sample; Sample]%Z (mk_duplex [0; 0]%Z [] [])) = Some [0; 8; 0; (6 * 2 ^ 32 + 6) mod 97]%Z.
Proof. vm_compute. auto. Qed.

(** ** C101: over a small field without Montgomery form, Split does not reduce the digit: every modulus is returned unreduced for some value. *)
Theorem C101_split_plain_refuted : forall p : Z, (0 < p < 2 ^ 32)%Z -> exists v, (0 <= v < 2 ^ 64)%Z /\ split to_small_plain 1 v = [p].
Proof. exact split_plain_not_reduced. Qed.
Print Assumptions C101_split_plain_refuted.
