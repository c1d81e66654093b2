(** Specification of the deque: the same operations on plain lists. *)
From Coq Require Import List Arith.
From Verif Require Import ParallelizeModel DequeModel.
Import ListNotations.

Section DequeSpec.
Variable T : Type.
(** The operation may be called: positions inside the sequence, no pop of an empty one. *)
Definition legal (o : op T) (l : list T) : Prop :=
  match o with
  | PopBack | PopFront => l <> []
  | InsertN k _ _ | Insert k _ | Emplace k _ => k <= length l
  | Erase i j => i <= j <= length l
  | _ => True
  end.
Definition list_step (o : op T) (l : list T) : list T :=
  match o with
  | PushBack x => l ++ [x]
  | PushFront x => x :: l
  | PopBack => removelast l
  | PopFront => tl l
  | InsertN k n x => firstn k l ++ repeat x n ++ skipn k l
  | Insert k xs => firstn k l ++ xs ++ skipn k l
  | Emplace k x => firstn k l ++ [x] ++ skipn k l
  | Erase i j => firstn i l ++ skipn j l
  | Resize n x => firstn n l ++ repeat x (n - length l)
  | Reserve _ | ShrinkToFit => l
  | Clear => []
  | AssignN n x => repeat x n
  | Assign xs | AssignInit xs => xs
  end.
(** Running a whole history on lists, when every operation is legal where it is called. *)
Fixpoint legal_run (os : list (op T)) (l : list T) : Prop :=
  match os with [] => True | o :: r => legal o l /\ legal_run r (list_step o l) end.
Definition list_run (os : list (op T)) (l : list T) : list T := fold_left (fun l o => list_step o l) os l.

(** What a user can observe of a deque holding [l]. *)
Definition observes (d : deque T) (l : list T) : Prop :=
  size T d = length l /\ is_empty T d = (length l =? 0) /\ (forall i, i < length l -> at_ T i d = nth_error l i) /\
  (l <> [] -> front T d = hd_error l /\ back T d = hd_error (rev l)) /\
  elements T d = Some l /\ relements T d = Some (rev l) /\ length l <= capacity T d /\ destructor T d = Some tt.

(** Programs over several variables: assignment copies the list, a move leaves the source empty. *)
Definition slegal (o : sop T) (ls : list (list T)) : Prop :=
  match o with On i o => forall l, nth_error ls i = Some l -> legal o l | _ => True end.
Definition list_sstep (o : sop T) (ls : list (list T)) : option (list (list T)) :=
  match o with
  | On i o => do l <- nth_error ls i ; Some (set_nth i (list_step o l) ls)
  | CopyNew i => do l <- nth_error ls i ; Some (ls ++ [l])
  | CopyTo i j => do l <- nth_error ls i ; do m <- nth_error ls j ; Some (set_nth i m ls)
  | MoveNew i => do l <- nth_error ls i ; Some (set_nth i [] ls ++ [l])
  | MoveTo i j => do l <- nth_error ls i ; do m <- nth_error ls j ;
                  Some (if i =? j then ls else set_nth j [] (set_nth i m ls))
  | SwapOp i j => do l <- nth_error ls i ; do m <- nth_error ls j ; Some (set_nth j l (set_nth i m ls))
  end.
(** Every operation of the program is legal and uses existing variables; the final contents. *)
Inductive list_srun : list (sop T) -> list (list T) -> list (list T) -> Prop :=
| srun_nil l1 : list_srun [] l1 l1
| srun_cons o r l1 l2 l3 : slegal o l1 -> list_sstep o l1 = Some l2 -> list_srun r l2 l3 -> list_srun (o :: r) l1 l3.
End DequeSpec.
