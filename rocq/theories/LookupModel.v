(** Model of tachyon/zk/lookup/halo2/permute_expression_pair.h (PE) and of Blinder::Blind, zk/base/blinder.h:33-46. Only definitions.
    Field elements are an arbitrary type with a decidable equality and a comparison [ltb] (operator< of the field); base::UnstableSort is any function [sort].
    Outcomes: [None] is undefined behaviour or a failed CHECK, [Some None] is [return false], [Some (Some (A', S'))] is [return true]. *)
From Coq Require Import List Arith Bool.
From Verif Require Import CycleModel.
Import ListNotations.
Open Scope nat_scope.

Section Lookup.
  Variable F : Type.
  Variable eqb ltb : F -> F -> bool.
  Variable zero : F.
  Variable sort : list F -> list F.

  (** absl::btree_map: an association list in the order of the keys. try_emplace and ++, PE:47-56. *)
  Fixpoint bump (m : list (F * nat)) (x : F) : list (F * nat) :=
    match m with
    | [] => [(x, 1)]
    | (y, c) :: r => if eqb x y then (y, S c) :: r else if ltb x y then (x, 1) :: (y, c) :: r else (y, c) :: bump r x
    end.
  (** find and CHECK_GT(it->second--, 0), PE:109-121: [None] is the failed CHECK, [Some None] not found. *)
  Fixpoint take (m : list (F * nat)) (x : F) : option (option (list (F * nat))) :=
    match m with
    | [] => Some None
    | (y, c) :: r =>
        if eqb x y then match c with O => None | S c' => Some (Some ((y, c') :: r)) end
        else match take r x with
             | Some (Some r') => Some (Some ((y, c) :: r'))
             | other => other
             end
    end.

  (** The loop over the rows, PE:68-125; [prev] is the input value of the row before, [rep] is repeated_input_rows, its back first. *)
  Fixpoint scan (prev : option F) (row : nat) (a : list F) (m : list (F * nat)) (s : list F) (rep : list nat) : option (option (list (F * nat) * list F * list nat)) :=
    match a with
    | [] => Some (Some (m, s, rep))
    | x :: a' =>
        if match prev with None => true | Some y => negb (eqb x y) end then
          match update s row x with
          | None => None
          | Some s' => match take m x with
                       | None => None
                       | Some None => Some None
                       | Some (Some m') => scan (Some x) (S row) a' m' s' rep
                       end
          end
        else scan (Some x) (S row) a' m s (row :: rep)
    end.

  (** The inner loop over the count of one key, PE:133-138, and the loop over the map, PE:128-139. *)
  Fixpoint place (x : F) (count : nat) (s : list F) (rep : list nat) : option (list F * list nat) :=
    match count with
    | O => Some (s, rep)
    | S count' => match rep with
                  | [] => None
                  | row :: rep' => match update s row x with Some s' => place x count' s' rep' | None => None end
                  end
    end.
  Fixpoint place_all (m : list (F * nat)) (s : list F) (rep : list nat) : option (list F * list nat) :=
    match m with
    | [] => Some (s, rep)
    | (x, c) :: r => match place x c s rep with Some (s', rep') => place_all r s' rep' | None => None end
    end.

  (** Blind with include_last_row: the last blinding_factors + 1 values become the next values of the generator; [None]: too few rows (returns false, ignored by the caller, and changes nothing). *)
  Definition blind (bf : nat) (rnd : nat -> F) (from : nat) (v : list F) : list F * nat :=
    if length v <? bf + 1 then (v, from) else (firstn (length v - (bf + 1)) v ++ map rnd (seq from (bf + 1)), from + (bf + 1)).

  (** PermuteExpressionPair: domain_size [n], [bf] blinding factors, usable rows n - (bf + 1) (entity.h GetUsableRows), generator [rnd].
      Without a usable row, reserve(usable_rows - 1) wraps to 2^32 - 1 entries: modelled as an abort. Vectors shorter than the domain: undefined. *)
  Definition permute_expression_pair (n bf : nat) (rnd : nat -> F) (input table : list F) : option (option (list F * list F)) :=
    let u := n - (bf + 1) in
    if (u =? 0) || negb (length input =? n) || negb (length table =? n) then None
    else
      let a := sort (firstn u input) ++ skipn u input in
      let m := fold_left bump (firstn u table) [] in
      let s := repeat zero n in
      match scan None 0 (firstn u a) m s [] with
      | None => None
      | Some None => Some None
      | Some (Some (m', s', rep)) =>
          match place_all m' s' rep with
          | Some (s'', []) =>
              let (a', from) := blind bf rnd 0 a in
              let (t', _) := blind bf rnd from s'' in
              Some (Some (a', t'))
          | _ => None
          end
      end.
End Lookup.
