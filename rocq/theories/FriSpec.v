(** Vocabulary for the FRI theorems. *)
From Coq Require Import ZArith List Arith Sorting.Sorted.
From Verif Require Import Field PolySpec BitsSpec FFTSpec FriModel.
Import ListNotations.
Open Scope nat_scope.

Section Spec.
  Variable K : fld.
  Variables (adicity : nat) (root : K).
  Open Scope fld_scope.
  (** [v] lists the values of the polynomial [c] on the subgroup of size 2^k, in bit-reversed order. *)
  Definition evaluations_of (c : list K) (k : nat) (v : list K) : Prop :=
    length v = (2 ^ k)%nat /\
    forall r, (r < 2 ^ k)%nat -> nth r v 0 = eval c (generator adicity root k ^ Z.to_nat (rev_bits k (Z.of_nat r))).
  (** even part + beta * odd part. *)
  Fixpoint fold_poly (beta : K) (c : list K) : list K :=
    match c with
    | a :: b :: r => (a + beta * b) :: fold_poly beta r
    | l => l
    end.
  (** [v] is a codeword of rate 1 / 2^log_blowup and size 2^k. *)
  Definition low_degree (log_blowup k : nat) (v : list K) : Prop :=
    (log_blowup <= k)%nat /\ exists c, (length c <= 2 ^ (k - log_blowup))%nat /\ evaluations_of c k v.
  (** What the verifier must be told about the inputs [ins] when it asks for position [index] of the largest one, of size 2^k: for each, log2 of its size and its value at the same position scaled down. *)
  Definition openings_at (k index : nat) (ins : list (list K)) : list (nat * K) :=
    map (fun v => (Nat.log2 (length v), nth (Nat.div index (2 ^ (k - Nat.log2 (length v)))) v 0)) ins.
  Definition decreasing (ins : list (list K)) : Prop := StronglySorted (fun a b => (length b < length a)%nat) ins.

  (** The matrices [mats] are those of an honest prover with challenges [betas] that starts from the vector [f] of size 2^k to which it adds the inputs of that size, and ends in the constant [final]. *)
  Fixpoint honest_folding (threads : Z) (ins : list (list K)) (final : K) (k : nat) (f : list K) (betas : list K) (mats : list (list (list K))) : Prop :=
    match betas, mats with
    | [], [] => forall i, (i < 2 ^ k)%nat -> nth_error f i = Some final
    | b :: bs, m :: ms =>
        exists k' f', k = S k' /\ leaves (add_inputs f ins) = Some m /\ fold_matrix adicity root threads b m = Some f' /\ honest_folding threads ins final k' f' bs ms
    | _, _ => False
    end.

  Section Schemes.
    Variables (Com Data Pf : Type).
    Variable mmcs_commit : list (list K) -> option (Com * Data).
    Variable mmcs_matrix : Data -> list (list K).
    Variable mmcs_open : nat -> Data -> option (list (list K) * Pf).
    Variable mmcs_verify : Com -> nat * nat -> nat -> list (list K) -> Pf -> bool.
    (** Committing to a two-column matrix succeeds, and what is opened is the row, with a proof that verifies. *)
    Definition complete_mmcs : Prop :=
      forall k m, length m = (2 ^ k)%nat -> Forall (fun row => length row = 2%nat) m ->
      exists c d, mmcs_commit m = Some (c, d) /\ mmcs_matrix d = m /\
        forall i, (i < 2 ^ k)%nat -> exists pf, mmcs_open i d = Some ([nth i m []], pf) /\ mmcs_verify c (2, 2 ^ k)%nat i [nth i m []] pf = true.
    (** The commitment [c] can be opened to the matrix [m] of 2^k rows only. *)
    Definition binds (c : Com) (k : nat) (m : list (list K)) : Prop :=
      length m = (2 ^ k)%nat /\ Forall (fun row => length row = 2%nat) m /\
      forall i rows pf, (i < 2 ^ k)%nat -> mmcs_verify c (2, 2 ^ k)%nat i rows pf = true -> rows = [nth i m []].
    Fixpoint all_bind (cs : list Com) (k : nat) (mats : list (list (list K))) : Prop :=
      match cs, mats with
      | [], [] => True
      | c :: cs', m :: ms => exists k', k = S k' /\ binds c k' m /\ all_bind cs' k' ms
      | _, _ => False
      end.
  End Schemes.
End Spec.
Arguments evaluations_of {K}. Arguments fold_poly {K}. Arguments low_degree {K}. Arguments openings_at {K}. Arguments decreasing {K}. Arguments honest_folding {K}.
Arguments complete_mmcs {K} {Com Data Pf}. Arguments binds {K} {Com Pf}. Arguments all_bind {K} {Com Pf}.
