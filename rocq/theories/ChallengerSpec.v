(** What the challenges are as a function of the transcript. *)
From Coq Require Import ZArith List Arith.
Import ListNotations.
Open Scope nat_scope.

Section Spec.
  Context {F S : Type}.
  (** [absorb s xs]: the state once the observations xs have been absorbed; [next]: the following state when all outputs of a state have been given out; [out]: the outputs of a state, in the order in which they are given out. *)
  Variables (absorb : S -> list F -> S) (next : S -> S) (out : S -> list F).

  Fixpoint iterate (n : nat) (s : S) : S := match n with O => s | Datatypes.S n' => iterate n' (next s) end.
  (** The outputs of s, of next s, of next (next s), ...: [n] of them. *)
  Fixpoint stream (n : nat) (s : S) : list F := match n with O => [] | Datatypes.S n' => out s ++ stream n' (next s) end.

  (** A transcript is a list of rounds: observations, then a number of samples.  [width] is the number of outputs of a state. *)
  Fixpoint challenges (width : nat) (s : S) (rounds : list (list F * nat)) : list F :=
    match rounds with
    | [] => []
    | (xs, k) :: r => let s' := absorb s xs in
                      firstn k (stream k s') ++ challenges width (iterate ((k - 1) / width) s') r
    end.
End Spec.

(** Absorption of the duplex challengers: every block of R inputs overwrites the first lanes and the permutation is applied; a last, shorter block as well. *)
Fixpoint duplex_blocks {F B : Type} (put : list F -> list B -> list B) (perm : list B -> list B) (R fuel : nat) (l : list B) (xs : list F) : list B :=
  match xs with
  | [] => l
  | _ => match fuel with
         | O => l
         | S fuel' => duplex_blocks put perm R fuel' (perm (put (firstn R xs) l)) (skipn R xs)
         end
  end.
Definition duplex_absorb {F B : Type} (put : list F -> list B -> list B) (perm : list B -> list B) (R : nat) (l : list B) (xs : list F) : list B :=
  duplex_blocks put perm R (length xs) l xs.
(** Overwriting the first lanes. *)
Definition overwrite {F : Type} (b l : list F) : list F := b ++ skipn (length b) l.

(** The multi-field challenger overwrites the first lanes with groups of N small elements, each read as a number in base 2^32 modulo P (the elements are 32-bit values); the outputs of a lane are its N lowest digits in base 2^64 modulo p. *)
Fixpoint number (base : Z) (vs : list Z) : Z := match vs with [] => 0 | v :: r => v + base * number base r end%Z.
Fixpoint groups {A : Type} (N fuel : nat) (xs : list A) : list (list A) :=
  match xs with [] => [] | _ => match fuel with O => [] | S fuel' => firstn N xs :: groups N fuel' (skipn N xs) end end.
Definition multi_overwrite (P : Z) (N : nat) (b : list Z) (l : list Z) : list Z :=
  overwrite (map (fun g => number (2 ^ 32) (map (fun v => v mod 2 ^ 32) g) mod P)%Z (groups N (length b) b)) l.
Definition digits64 (p : Z) (N : nat) (v : Z) : list Z := map (fun i => (v / 2 ^ (64 * Z.of_nat i)) mod 2 ^ 64 mod p)%Z (seq 0 N).
