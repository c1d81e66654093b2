(** Vocabulary for the theorems on rank-one constraint systems. *)
From Coq Require Import List Bool Arith Permutation Sorted.
From Verif Require Import Field R1csModel.
Import ListNotations.
Open Scope fld_scope.

(** The value of a variable and of a linear combination when the public inputs are [I] (the first is the constant one), the
    witnesses [W] and the linear combinations created so far have the values [L]. *)
Definition val {K : fld} (I W L : list K) (v : var) : K :=
  match v with VZero => 0 | VOne => 1 | VInst i => nth i I 0 | VWit i => nth i W 0 | VLc i => nth i L 0 end.
Definition value {K : fld} (I W L : list K) (l : lc K) : K := fsum (map (fun t => fst t * val I W L (snd t)) l).

(** A call made by a circuit. A linear combination created explicitly may be used in later ones; a constraint creates three
    that the circuit cannot name. *)
Inductive call (K : fld) := NewInstance (v : K) | NewWitness (v : K) | NewLc (l : lc K) | Enforce (a b c : lc K).
Arguments NewInstance {K}. Arguments NewWitness {K}. Arguments NewLc {K}. Arguments Enforce {K}.
Definition circuit (K : fld) : Type := list (call K).

(** What a circuit asks of the public inputs and the witnesses: the constraints hold, in terms of the values of the linear
    combinations created before them. *)
Fixpoint holds {K : fld} (I W L : list K) (calls : circuit K) : Prop :=
  match calls with
  | [] => True
  | NewInstance _ :: r | NewWitness _ :: r => holds I W L r
  | NewLc l :: r => holds I W (L ++ [value I W L l]) r
  | Enforce a b c :: r =>
      value I W L a * value I W L b = value I W L c /\ holds I W (L ++ [value I W L a; value I W L b; value I W L c]) r
  end.
(** The circuit accepts these public inputs with these witnesses. *)
Definition accepts {K : fld} (calls : circuit K) (I W : list K) : Prop := holds I W [] calls.

(** A circuit uses only variables it has been given: [ni] and [nw] variables so far, and the linear combinations in [user], of [nl]
    created in all. *)
Definition known (ni nw : nat) (user : list nat) (v : var) : Prop :=
  match v with VZero => False | VOne => True | VInst i => (i < ni)%nat | VWit i => (i < nw)%nat | VLc i => In i user end.
Fixpoint well_formed {K : fld} (ni nw nl : nat) (user : list nat) (calls : circuit K) : Prop :=
  match calls with
  | [] => True
  | NewInstance _ :: r => well_formed (S ni) nw nl user r
  | NewWitness _ :: r => well_formed ni (S nw) nl user r
  | NewLc l :: r => Forall (fun t => known ni nw user (snd t)) l /\ well_formed ni nw (S nl) (nl :: user) r
  | Enforce a b c :: r => Forall (fun t => known ni nw user (snd t)) (a ++ b ++ c) /\ well_formed ni nw (3 + nl) user r
  end.
Definition proper {K : fld} (calls : circuit K) : Prop := well_formed 1 0 0 [] calls.

(** The public inputs and the witnesses the callbacks return, in order. *)
Definition instances {K : fld} (calls : circuit K) : list K := flat_map (fun c => match c with NewInstance v => [v] | _ => [] end) calls.
Definition witnesses {K : fld} (calls : circuit K) : list K := flat_map (fun c => match c with NewWitness v => [v] | _ => [] end) calls.

(** The system a circuit leaves behind. *)
Fixpoint synthesize {K : fld} (s : cs K) (calls : circuit K) : option (cs K) :=
  match calls with
  | [] => Some s
  | NewInstance v :: r => synthesize (fst (create_instance s v)) r
  | NewWitness v :: r => synthesize (fst (create_witness s v)) r
  | NewLc l :: r => synthesize (fst (create_lc s l)) r
  | Enforce a b c :: r => match enforce s a b c with None => None | Some s' => synthesize s' r end
  end.

(** The rows of a matrix times the assignment [z], and satisfaction of the three matrices. *)
Definition row_value {K : fld} (z : list K) (row : list (cell K)) : K := fsum (map (fun c => fst c * nth (snd c) z 0) row).
Definition rows_hold {K : fld} (m : matrices K) (z : list K) : Prop :=
  forall i, (i < m_con m)%nat ->
    row_value z (nth i (m_a m) []) * row_value z (nth i (m_b m) []) = row_value z (nth i (m_c m) []).

(** Matrices with one row per constraint, whose columns belong to the variables; the constant one is an instance variable. *)
Definition well_shaped {K : fld} (m : matrices K) : Prop :=
  length (m_a m) = m_con m /\ length (m_b m) = m_con m /\ length (m_c m) = m_con m /\ (0 < m_inst m)%nat /\
  forall row c, In row (m_a m ++ m_b m ++ m_c m) -> In c row -> (snd c < m_inst m + m_wit m)%nat.
(** Circuits that make the same calls with the same linear combinations; only the values they assign may differ. *)
Definition same_call {K : fld} (c c' : call K) : Prop :=
  match c, c' with NewInstance _, NewInstance _ => True | NewWitness _, NewWitness _ => True | _, _ => c = c' end.
Definition same_circuit {K : fld} (calls calls' : circuit K) : Prop := Forall2 same_call calls calls'.

(** The order on variables of the documentation: by type, then by index. *)
Definition before (a b : var) : Prop :=
  (var_type a < var_type b)%nat \/ (var_type a = var_type b /\ (var_index a < var_index b)%nat).
(** Strictly increasing variables. *)
Definition normal {K : fld} (l : lc K) : Prop := StronglySorted (fun t u : term K => before (snd t) (snd u)) l.
(** Any sort of the terms by variable, not necessarily stable. *)
Definition sorts_terms {K : fld} (sort : lc K -> lc K) : Prop :=
  forall l, Permutation l (sort l) /\ StronglySorted (fun t u : term K => before (snd t) (snd u) \/ snd t = snd u) (sort l).

(** The linear combinations a circuit has created, in order. *)
Fixpoint combinations {K : fld} (calls : circuit K) : list (lc K) :=
  match calls with
  | [] => []
  | NewLc l :: r => l :: combinations r
  | Enforce a b c :: r => a :: b :: c :: combinations r
  | _ :: r => combinations r
  end.
(** Their values. *)
Fixpoint combination_values {K : fld} (I W L : list K) (calls : circuit K) : list K :=
  match calls with
  | [] => L
  | NewLc l :: r => combination_values I W (L ++ [value I W L l]) r
  | Enforce a b c :: r => combination_values I W (L ++ [value I W L a; value I W L b; value I W L c]) r
  | _ :: r => combination_values I W L r
  end.
(** The contents of the cache while a circuit makes its calls and linear combinations are evaluated in between, in any order. *)
Inductive cache_after {K : fld} : circuit K -> cache_t -> Prop :=
| cache_start : cache_after [] []
| cache_call calls c more : cache_after calls c -> cache_after (calls ++ [more]) c
| cache_query calls c s i x c' : cache_after calls c -> synthesize (new_cs false true false) calls = Some s ->
    cached (S (n_lc s)) (inst s) (wit s) (lc_map s) c (VLc i) = Some (x, c') -> cache_after calls c'.
