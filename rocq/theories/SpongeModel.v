(** Model of the field sponges, over an abstract permutation:
    tachyon/crypto/hashes/sponge/poseidon/poseidon_sponge_base.h (PS), padding_free_sponge.h (PF), truncated_permutation.h (TP) and sponge_state.h.

    The state is the list of its kWidth = kCapacity + kRate elements.  An access outside it is [None].
    [perm] is Permute on the elements.  Only the addition of the field is used. *)
From Coq Require Import List Arith Bool.
Import ListNotations.
Open Scope nat_scope.

(** DuplexSpongeMode, duplex_sponge_mode.h:18-55. *)
Inductive mode := Absorbing (next_index : nat) | Squeezing (next_index : nat).

(** SpongeState, sponge_state.h:22-44. *)
Record sponge_state (F : Type) := mk_state { elements : list F; smode : mode }.
Arguments mk_state {F} elements smode.
Arguments elements {F} _.
Arguments smode {F} _.

(** state[i] = x. *)
Fixpoint write {F : Type} (l : list F) (i : nat) (x : F) : option (list F) :=
  match l, i with
  | [], _ => None
  | _ :: r, O => Some (x :: r)
  | a :: r, S i' => match write r i' x with Some r' => Some (a :: r') | None => None end
  end.

Section Sponge.
  Context {F : Type}.
  Variables (add : F -> F -> F) (perm : list F -> list F) (capacity rate : nat).

  (** The inner for loops of AbsorbInternal, PS:188-192 and PS:199-202: state[pos + i] += xs[i]. *)
  Fixpoint add_from (l : list F) (pos : nat) (xs : list F) : option (list F) :=
    match xs with
    | [] => Some l
    | x :: xs' => match nth_error l pos with
                  | Some a => match write l pos (add a x) with Some l' => add_from l' (S pos) xs' | None => None end
                  | None => None
                  end
    end.

  (** AbsorbInternal, PS:178-207.  Each turn but the last consumes kRate - rate_start_index > 0 elements, so [length elems] + 1 turns are enough; running out of fuel (possible only for rate_start_index = kRate = 0) is [None]. *)
  Fixpoint absorb_internal (fuel : nat) (l : list F) (start : nat) (elems : list F) : option (sponge_state F) :=
    if start + length elems <=? rate then
      match add_from l (capacity + start) elems with
      | Some l' => Some (mk_state l' (Absorbing (start + length elems)))
      | None => None
      end
    else
      match fuel with
      | O => None
      | S fuel' =>
          let k := rate - start in
          match add_from l (capacity + start) (firstn k elems) with
          | Some l' => absorb_internal fuel' (perm l') 0 (skipn k elems)
          | None => None
          end
      end.

  (** Absorb, PS:35-57. *)
  Definition absorb (s : sponge_state F) (input : list F) : option (sponge_state F) :=
    match smode s with
    | Absorbing i =>
        if i =? rate then absorb_internal (S (length input)) (perm (elements s)) 0 input
        else absorb_internal (S (length input)) (elements s) i input
    | Squeezing _ => absorb_internal (S (length input)) (perm (elements s)) 0 input
    end.

  (** The copy loops of SqueezeInternal, PS:218-222 and PS:229-233. *)
  Fixpoint read_from (l : list F) (pos n : nat) : option (list F) :=
    match n with
    | O => Some []
    | S n' => match nth_error l pos, read_from l (S pos) n' with Some a, Some r => Some (a :: r) | _, _ => None end
    end.

  (** SqueezeInternal, PS:210-241.  [n] is output_remaining_size. *)
  Fixpoint squeeze_internal (fuel : nat) (l : list F) (start n : nat) : option (list F * sponge_state F) :=
    if start + n <=? rate then
      match read_from l (capacity + start) n with
      | Some out => Some (out, mk_state l (Squeezing (start + n)))
      | None => None
      end
    else
      match fuel with
      | O => None
      | S fuel' =>
          let k := rate - start in
          match read_from l (capacity + start) k with
          | Some out =>
              let l' := if n =? rate then l else perm l in
              match squeeze_internal fuel' l' 0 (n - k) with
              | Some (out', s') => Some (out ++ out', s')
              | None => None
              end
          | None => None
          end
      end.

  (** SqueezeNativeFieldElements, PS:121-147. *)
  Definition squeeze (s : sponge_state F) (n : nat) : option (list F * sponge_state F) :=
    match smode s with
    | Absorbing _ => squeeze_internal (S n) (perm (elements s)) 0 n
    | Squeezing i => if i =? rate then squeeze_internal (S n) (perm (elements s)) 0 n else squeeze_internal (S n) (elements s) i n
    end.

  (** state[pos + i] = xs[i], the inner loop of PaddingFreeSponge::DoHash (PF:39-43) and of TruncatedPermutation::DoCompress (TP:41-46). *)
  Fixpoint write_from (l : list F) (pos : nat) (xs : list F) : option (list F) :=
    match xs with
    | [] => Some l
    | x :: xs' => match write l pos x with Some l' => write_from l' (S pos) xs' | None => None end
    end.

  (** The outer loop of DoHash, PF:38-45, on the remaining input; the fuel is the number of remaining elements, at most one turn per element. *)
  Fixpoint hash_loop (fuel : nat) (l : list F) (input : list F) : option (list F) :=
    match input with
    | [] => Some l
    | _ => match fuel with
           | O => None
           | S fuel' => match write_from l 0 (firstn rate input) with
                        | Some l' => hash_loop fuel' (perm l') (skipn rate input)
                        | None => None
                        end
           end
    end.
  (** PaddingFreeSponge::DoHash from the state [l0] (CreateEmptyState: all zero), PF:36-52. *)
  Definition padding_free_hash (l0 : list F) (out : nat) (input : list F) : option (list F) :=
    match hash_loop (length input) l0 input with Some l => read_from l 0 out | None => None end.

  (** TruncatedPermutation::DoCompress, TP:38-54. *)
  Definition truncated_compress (l0 : list F) (chunk : nat) (inputs : list (list F)) : option (list F) :=
    match write_from l0 0 (concat inputs) with Some l => read_from (perm l) 0 chunk | None => None end.
End Sponge.
