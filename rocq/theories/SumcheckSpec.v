(** Vocabulary for the multilinear theorems: functions on K^n, independent of the model. *)
From Coq Require Import ZArith List Bool Arith.
From Verif Require Import Field PolySpec.
Import ListNotations.
Open Scope fld_scope.

Section Spec.
  Context {K : fld}.
  (** The [b]-th corner of the cube {0,1}^n, least significant bit first. *)
  Definition corner (n b : nat) : list K := map (fun i => if Nat.testbit b i then 1 else 0) (seq 0 n).
  (** The polynomial that is 1 at the [b]-th corner and 0 at the others: the product of x_i or 1 - x_i. *)
  Definition weight (b : nat) (x : list K) : K :=
    fprod (map (fun i => if Nat.testbit b i then nth i x 0 else 1 - nth i x 0) (seq 0 (length x))).
  (** The multilinear polynomial with values [l] at the corners. *)
  Definition mlx (l x : list K) : K := fsum (map (fun b => nth b l 0 * weight b x) (seq 0 (Nat.pow 2 (length x)))).
  (** The sum of a function over the corners. *)
  Definition cube_sum (n : nat) (f : list K -> K) : K := fsum (map (fun b => f (corner n b)) (seq 0 (Nat.pow 2 n))).
  (** A vector of values for [n] variables; the empty one is zero. *)
  Definition values_for (n : nat) (l : list K) : Prop := l = [] \/ length l = Nat.pow 2 n.
  (** The function given by coefficients and products of multilinear polynomials. A product without factors is left out. *)
  Definition no_factors (t : K * list nat) : bool := match snd t with [] => true | _ => false end.
  Definition combination (heap : nat -> list K) (ts : list (K * list nat)) (x : list K) : K :=
    fsum (map (fun t => fst t * fprod (map (fun p => mlx (heap p) x) (snd t))) (filter (fun t => negb (no_factors t)) ts)).
  (** The largest number of factors. *)
  Definition max_factors (ts : list (K * list nat)) : nat := fold_right Nat.max 0%nat (map (fun t => length (snd t)) ts).
  (** [big] maps an element to an integer that stands for it, and 0, 1, ..., n-1 to themselves. *)
  Definition stands_for (big : K -> Z) (n : nat) : Prop :=
    (forall x : K, (0 <= big x)%Z /\ fnat (Z.to_nat (big x)) = x) /\ (forall i, (i < n)%nat -> big (fnat i) = Z.of_nat i).
  (** All vectors of [n] elements of [S]. *)
  Fixpoint tuples (S : list K) (n : nat) : list (list K) :=
    match n with
    | O => [[]]
    | Datatypes.S n => flat_map (fun r => map (cons r) (tuples S n)) S
    end.
  (** A prover that sees the challenges before it sends a message: its messages for the challenges [rs]. *)
  Fixpoint messages (strategy : list K -> list K) (seen rs : list K) : list (list K) :=
    match rs with
    | [] => []
    | r :: rs => strategy seen :: messages strategy (seen ++ [r]) rs
    end.
End Spec.
