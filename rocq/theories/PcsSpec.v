(** Vocabulary for the two-adic FRI commitment scheme. *)
From Coq Require Import ZArith List Arith.
From Verif Require Import Field PolySpec FFTModel FFTSpec BitsSpec DomainSpec CosetModel BatchSpec.
Import ListNotations.
Open Scope nat_scope.

(** What one matrix stands for: polynomials, to be given by their values on offset * H, |H| = 2^log. *)
Record committed (K : fld) : Type := { c_log : nat; c_offset : K; c_columns : list (list K) }.
Arguments c_log {K}. Arguments c_offset {K}. Arguments c_columns {K}.

Section Spec.
  Variable K : fld.
  Variables (adicity : nat) (root shift : K) (log_blowup : nat).
  Definition values_at (x : K) (columns : list (list K)) : list K := map (fun f => eval f x) columns.
  (** The matrix handed to Commit, one row for each point. *)
  Definition value_matrix (p : committed K) : list (list K) :=
    map (fun x => values_at x (c_columns p)) (coset_points (c_offset p) (generator adicity root (c_log p)) (2 ^ c_log p)).
  (** At least two rows, at least one column, room for the extension, degrees below the number of rows. *)
  Definition committable (p : committed K) : Prop :=
    0 < c_log p /\ c_log p + log_blowup <= adicity /\ c_log p + log_blowup < 32 /\ c_offset p <> 0%fld /\
    c_columns p <> [] /\ Forall (fun f => length f <= 2 ^ c_log p) (c_columns p).
  (** A point is none of those whose values are committed to. *)
  Definition outside (p : committed K) (z : K) : Prop :=
    ~ In z (coset_points shift (generator adicity root (c_log p + log_blowup)) (2 ^ (c_log p + log_blowup))).
  (** The number of rows of the tallest matrix. *)
  Definition tallest {A} (mats : list (list A)) : nat := list_max (map (@length A) mats).
  (** The number of values opened. *)
  Definition count_values (batches : list (list (committed K))) (points : list (list (list K))) : nat :=
    list_sum (map (fun bp => list_sum (map (fun e => length (c_columns (fst e)) * length (snd e)) (combine (fst bp) (snd bp)))) (combine batches points)).

  (** A matrix of the verifier's claim: its rows, 2^(log + log_blowup) of them, and the values claimed for the points. *)
  Record claim : Type := { m_log : nat; m_rows : list (list K); m_points : list K; m_values : list (list K) }.
  Definition height (c : claim) : nat := m_log c + log_blowup.
  (** The point row [r] of a matrix of 2^l rows belongs to. *)
  Definition row_point (l r : nat) : K := (shift * generator adicity root l ^ Z.to_nat (BitsSpec.rev_bits l (Z.of_nat r)))%fld.
  (** The sum over points and columns of alpha^j (p(x) - y) / (x - z) at row [r], starting at alpha^off: a row and its values enter as combinations by powers of alpha. *)
  Fixpoint quotient_points (alpha : K) (l r off : nat) (row : list K) (zys : list (K * list K)) : K :=
    match zys with
    | [] => 0%fld
    | (z, ys) :: rest => (alpha ^ off * (eval row alpha - eval ys alpha) / (row_point l r - z) + quotient_points alpha l r (off + length ys) row rest)%fld
    end.
  Definition values_of (c : claim) : nat := list_sum (map (@length K) (m_values c)).
  Fixpoint quotient_claims (alpha : K) (l r off : nat) (cs : list claim) : K :=
    match cs with
    | [] => 0%fld
    | c :: rest => (quotient_points alpha l r off (nth r (m_rows c) []) (combine (m_points c) (m_values c)) + quotient_claims alpha l r (off + values_of c) rest)%fld
    end.
  (** One vector for each height that occurs, the tallest first. *)
  Definition claimed_vector (alpha : K) (cs : list claim) (l : nat) : list K :=
    map (fun r => quotient_claims alpha l r 0 (filter (fun c => height c =? l) cs)) (seq 0 (2 ^ l)).
  Definition claimed_vectors (alpha : K) (cs : list claim) : list (list K) :=
    map (claimed_vector alpha cs) (filter (fun l => existsb (fun c => height c =? l) cs) (rev (seq 0 (S adicity)))).
  (** Well-formed: at least two rows before the extension, one list of values for each point. *)
  Definition well_formed (c : claim) : Prop :=
    0 < m_log c /\ height c <= adicity /\ length (m_rows c) = 2 ^ height c /\ length (m_values c) = length (m_points c).

  Section Schemes.
    Variables (ICom IData IPf : Type).
    Variable input_commit : list (list (list K)) -> option (ICom * IData).
    Variable input_matrices : IData -> list (list (list K)).
    Variable input_open : nat -> IData -> option (list (list K) * IPf).
    Variable input_verify : ICom -> list (nat * nat) -> nat -> list (list K) -> IPf -> bool.
    (** Committing to matrices whose heights are powers of two succeeds; what is opened at row [i] of the tallest is, for each matrix, the row at the same relative position, with a proof that verifies. *)
    Definition complete_input : Prop :=
      forall mats, mats <> [] -> Forall (fun m => exists j cols, j < 32 /\ 0 < cols /\ is_matrix (2 ^ j) cols m) mats ->
      exists c d, input_commit mats = Some (c, d) /\ input_matrices d = mats /\
        forall i, i < tallest mats -> exists pf,
          let rows := map (fun m => nth (Nat.div i (Nat.div (tallest mats) (length m))) m []) mats in
          input_open i d = Some (rows, pf) /\ input_verify c (map (fun m => (0, length m)) mats) i rows pf = true.
    (** The commitment [com] can be opened, at row [i] of the tallest matrix, to the rows of these matrices at that relative position only. *)
    Definition binds_matrices (com : ICom) (cs : list claim) : Prop :=
      forall i rows pf, i < 2 ^ list_max (map height cs) -> input_verify com (map (fun c => (0, 2 ^ height c)) cs) i rows pf = true ->
        rows = map (fun c => nth (Nat.div i (2 ^ (list_max (map height cs) - height c))) (m_rows c) []) cs.
  End Schemes.
End Spec.
Arguments values_at {K}. Arguments value_matrix {K}. Arguments committable {K}. Arguments outside {K}. Arguments count_values {K}. Arguments complete_input {K} {ICom IData IPf}.
Arguments m_log {K}. Arguments m_rows {K}. Arguments m_points {K}. Arguments m_values {K}. Arguments height {K}. Arguments row_point {K}. Arguments quotient_points {K}. Arguments values_of {K}.
Arguments quotient_claims {K}. Arguments claimed_vector {K}. Arguments claimed_vectors {K}. Arguments well_formed {K}. Arguments binds_matrices {K} log_blowup {ICom IPf}.
