(** Specification of the serialised form: which bytes a value occupies, without any buffer. *)
From Coq Require Import ZArith List Bool.
From Verif Require Import BufferModel.
Import ListNotations.
Open Scope Z_scope.

(** Byte [k] of the integer [v], least significant first. *)
Definition byte (v : Z) (k : nat) : Z := (v / 256 ^ Z.of_nat k) mod 256.
(** The [n] bytes of [v] in the order of the endianness. *)
Definition int_bytes (e : endian) (n : nat) (v : Z) : list Z :=
  map (fun k => match e with Big => byte v (n - 1 - k) | _ => byte v k end) (seq 0 n).

(** The encoding of a value: lengths are 8-byte integers, elements follow each other. *)
Fixpoint encoding (e : endian) (t : ty) : den t -> list Z :=
  match t with
  | TInt w => fun v => int_bytes e (size_of w) v
  | TStr cw => fun v => int_bytes e 8 (len v) ++ concat (map (int_bytes Little (size_of cw)) v)
  | TArr _ t => fun v => concat (map (encoding e t) v)
  | TVec t => fun v => int_bytes e 8 (len v) ++ concat (map (encoding e t) v)
  | TPair a b => fun v => encoding e a (fst v) ++ encoding e b (snd v)
  | TMat _ _ t => fun v =>
      int_bytes e 8 (fst (fst v)) ++ int_bytes e 8 (snd (fst v)) ++ concat (map (encoding e t) (snd v))
  end.

(** Values of a type: integers in range, arrays of the declared length, sizes that fit a size_t. *)
Fixpoint valid (t : ty) : den t -> Prop :=
  match t with
  | TInt w => fun v => 0 <= v < 256 ^ Z.of_nat (size_of w)
  | TStr cw => fun v => Forall (fun c => 0 <= c < 256 ^ Z.of_nat (size_of cw)) v /\ len v < 2 ^ 64
  | TArr n t => fun v => length v = n /\ Forall (valid t) v
  | TVec t => fun v => Forall (valid t) v /\ len v < 2 ^ 64
  | TPair a b => fun v => valid a (fst v) /\ valid b (snd v)
  | TMat dr dc t => fun v =>
      0 <= fst (fst v) < 2 ^ 63 /\ 0 <= snd (fst v) < 2 ^ 63 /\ fst (fst v) * snd (fst v) = len (snd v) /\
      (forall r, dr = Some r -> fst (fst v) = r) /\ (forall c, dc = Some c -> snd (fst v) = c) /\
      Forall (valid t) (snd v)
  end.

(** Types whose strings have one-byte characters. *)
Fixpoint narrow (t : ty) : bool :=
  match t with
  | TInt _ => true
  | TStr cw => match cw with W1 => true | _ => false end
  | TArr _ t => narrow t
  | TVec t => narrow t
  | TPair a b => narrow a && narrow b
  | TMat _ _ t => narrow t
  end.

(** A buffer whose cursor is inside it and whose size is a size_t. *)
Definition in_range (b : buffer) : Prop := 0 <= off b <= len (bytes b) /\ len (bytes b) < 2 ^ 64.
(** [d] can be written at the cursor. *)
Definition fits (b : buffer) (d : list Z) : Prop :=
  off b + len d < 2 ^ 64 /\ (growable b = true \/ off b + len d <= len (bytes b)).
(** The buffer after [d] has been written at the cursor: what precedes and what follows is kept. *)
Definition put (b : buffer) (d : list Z) : buffer :=
  Buf (firstn (Z.to_nat (off b)) (bytes b) ++ d ++ skipn (Z.to_nat (off b) + length d) (bytes b))
      (off b + len d) (end_ b) (growable b).

(** Types all of whose values have the same encoded size. *)
Fixpoint fixed (t : ty) : bool :=
  match t with TInt _ => true | TArr _ t => fixed t | TPair a b => fixed a && fixed b | _ => false end.
(** Matrix elements have a fixed size. *)
Fixpoint fixed_matrices (t : ty) : bool :=
  match t with
  | TInt _ | TStr _ => true
  | TArr _ t | TVec t => fixed_matrices t
  | TPair a b => fixed_matrices a && fixed_matrices b
  | TMat _ _ t => fixed t
  end.
