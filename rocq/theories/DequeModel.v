(** Model of base::circular_deque (tachyon/base/containers/circular_deque.h) and its VectorBuffer
    (tachyon/base/containers/vector_buffer.h).

    A buffer is the list of its cells; a cell is [None] while it holds no object and [Some x] while an object is
    alive in it.  Every operation returns an option: [None] is an access outside the buffer, a construction over a
    live object (a leak), a destruction or move of a dead one, or the release of a buffer with live objects.
    Capacities are natural numbers: the code CHECKs that the allocation size does not overflow.
    Moves are modelled like non-trivially-copyable moves (construct, then destroy the source); elements are
    values, copying and moving them cannot fail. *)
From Coq Require Import List Arith Bool.
From Verif Require Import ParallelizeModel.
Import ListNotations.

Notation "'do' x <- a ; b" := (match a with Some x => b | None => None end) (at level 200, x name, a at level 100, b at level 200).
Notation "'do' ( x , y ) <- a ; b" := (match a with Some (x, y) => b | None => None end) (at level 200, x name, y name, a at level 100, b at level 200).

Section Deque.
Variable T : Type.
Definition cells := list (option T).

(** Placement new into cell [i] (vector_buffer.h:77-83 for the address). *)
Definition construct (i : nat) (x : T) (b : cells) : option cells :=
  match nth_error b i with Some None => Some (set_nth i (Some x) b) | _ => None end.
(** Destructor call on cell [i]. *)
Definition destroy (i : nat) (b : cells) : option cells :=
  match nth_error b i with Some (Some _) => Some (set_nth i None b) | _ => None end.
Definition load (i : nat) (b : cells) : option T :=
  match nth_error b i with Some (Some x) => Some x | _ => None end.
(** vector_buffer.h:103-112 VectorBuffer::DestructRange, [n] cells from [i]. *)
Fixpoint destruct_cells (i n : nat) (b : cells) : option cells :=
  match n with 0 => Some b | S m => do b' <- destroy i b ; destruct_cells (S i) m b' end.
(** vector_buffer.h:124-165 VectorBuffer::MoveRange between two buffers, [n] cells. *)
Fixpoint move_cells (from : cells) (i n : nat) (to : cells) (j : nat) : option (cells * cells) :=
  match n with
  | 0 => Some (from, to)
  | S m => do x <- load i from ; do to' <- construct j x to ; do from' <- destroy i from ; move_cells from' (S i) m to' (S j)
  end.
(** MoveRange of a single cell inside one buffer. *)
Definition move1 (i j : nat) (b : cells) : option cells :=
  do x <- load i b ; do b' <- construct j x b ; destroy i b'.
(** vector_buffer.h:65 free: nothing alive may be left behind. *)
Definition release (b : cells) : option unit :=
  if forallb (fun c => match c with None => true | Some _ => false end) b then Some tt else None.

(** circular_deque.h:1083-1101 the members. *)
Record deque := Deque { buf : cells; dbegin : nat; dend : nat }.
Definition icap (d : deque) : nat := length (buf d).
Definition empty_deque : deque := Deque [] 0 0.

(** circular_deque.h:612-615 capacity. *)
Definition capacity (d : deque) : nat := if icap d =? 0 then 0 else icap d - 1.
(** circular_deque.h:641-647 empty, size. *)
Definition is_empty (d : deque) : bool := dbegin d =? dend d.
Definition size (d : deque) : nat :=
  if dbegin d <=? dend d then dend d - dbegin d else icap d - dbegin d + dend d.
(** circular_deque.h:533-539 at / operator[]. *)
Definition at_ (i : nat) (d : deque) : option T :=
  let right_size := icap d - dbegin d in
  if (dbegin d <=? dend d) || (i <? right_size) then load (dbegin d + i) (buf d) else load (i - right_size) (buf d).

(** Iterators are indices into the buffer (circular_deque.h:334).
    circular_deque.h:258-262 OffsetFromBegin; 265-280 Increment, Decrement; 281-302 Add of a non-negative offset. *)
Definition offset_from_begin (d : deque) (i : nat) : nat :=
  if dbegin d <=? i then i - dbegin d else icap d - dbegin d + i.
Definition increment (c i : nat) : nat := if S i =? c then 0 else S i.
Definition decrement (c i : nat) : nat := if i =? 0 then c - 1 else i - 1.
Definition iter_at (d : deque) (k : nat) : nat :=
  if k =? 0 then dbegin d else (k + dbegin d) mod icap d.
(** circular_deque.h:551-567 front, back. *)
Definition front (d : deque) : option T := load (dbegin d) (buf d).
Definition back (d : deque) : option T := load (decrement (icap d) (dend d)) (buf d).
(** for (it = begin(); it != end(); ++it): the elements seen, [None] if the loop does not end within [fuel] steps
    or dereferences a dead cell; and the same with rbegin()/rend(). *)
Fixpoint iterate (fuel : nat) (d : deque) (i : nat) : option (list T) :=
  if i =? dend d then Some [] else
  match fuel with
  | 0 => None
  | S f => do x <- load i (buf d) ; do r <- iterate f d (increment (icap d) i) ; Some (x :: r)
  end.
Definition elements (d : deque) : option (list T) := iterate (icap d) d (dbegin d).
Fixpoint riterate (fuel : nat) (d : deque) (i : nat) : option (list T) :=
  if i =? dbegin d then Some [] else
  match fuel with
  | 0 => None
  | S f => let j := decrement (icap d) i in do x <- load j (buf d) ; do r <- riterate f d j ; Some (x :: r)
  end.
Definition relements (d : deque) : option (list T) := riterate (icap d) d (dend d).

(** circular_deque.h:928-957 MoveBuffer: returns the emptied source, the destination and its end (begin is 0). *)
Definition move_buffer (from : cells) (fb fe : nat) (to : cells) : option (cells * cells * nat) :=
  if fb <? fe then
    do (f, t) <- move_cells from fb (fe - fb) to 0 ; Some (f, t, fe - fb)
  else if fe <? fb then
    let right_size := length from - fb in
    do (f, t) <- move_cells from fb right_size to 0 ;
    do (f2, t2) <- move_cells f 0 fe t right_size ; Some (f2, t2, right_size + fe)
  else Some (from, to, 0).
(** circular_deque.h:961-967 SetCapacityTo. *)
Definition set_capacity_to (n : nat) (d : deque) : option deque :=
  match move_buffer (buf d) (dbegin d) (dend d) (repeat None (n + 1)) with
  | Some (f, t, e) => do _u <- release f ; Some (Deque t 0 e)
  | None => None
  end.
(** circular_deque.h:133 kCircularBufferInitialCapacity. *)
Definition initial_capacity := 3.
(** circular_deque.h:968-982 ExpandCapacityIfNecessary. *)
Definition expand_capacity (extra : nat) (d : deque) : option deque :=
  let m := size d + extra in
  if m <=? capacity d then Some d
  else set_capacity_to (max (max m initial_capacity) (capacity d + capacity d / 4)) d.
(** circular_deque.h:984-1004 ShrinkCapacityIfNecessary. *)
Definition shrink_capacity (d : deque) : option deque :=
  if capacity d <=? initial_capacity then Some d else
  let sz := size d in
  if capacity d - sz <? sz then Some d else
  let n := max initial_capacity (sz + sz / 4) in
  if n <? capacity d then set_capacity_to n d else Some d.
(** circular_deque.h:1019-1028 DestructRange. *)
Definition destruct_range (i j : nat) (b : cells) : option cells :=
  if j =? i then Some b
  else if i <? j then destruct_cells i (j - i) b
  else do b' <- destruct_cells i (length b - i) b ; destruct_cells 0 j b'.
(** circular_deque.h:1007-1014 ClearRetainCapacity. *)
Definition clear_retain (d : deque) : option deque :=
  do b <- destruct_range (dbegin d) (dend d) (buf d) ; Some (Deque b 0 0).
(** circular_deque.h:634-639 clear. *)
Definition clear (d : deque) : option deque :=
  do d1 <- clear_retain d ; do _u <- release (buf d1) ; Some (Deque [] (dbegin d1) (dend d1)).

(** circular_deque.h:852-861, 863-873 emplace_front, emplace_back. *)
Definition emplace_front (x : T) (d : deque) : option deque :=
  do d1 <- expand_capacity 1 d ;
  let nb := if dbegin d1 =? 0 then icap d1 - 1 else dbegin d1 - 1 in
  do b <- construct nb x (buf d1) ; Some (Deque b nb (dend d1)).
Definition emplace_back (x : T) (d : deque) : option deque :=
  do d1 <- expand_capacity 1 d ;
  do b <- construct (dend d1) x (buf d1) ;
  Some (Deque b (dbegin d1) (if dend d1 =? icap d1 - 1 then 0 else S (dend d1))).
(** circular_deque.h:875-889, 890-903 pop_front, pop_back. *)
Definition pop_front (d : deque) : option deque :=
  do b <- destroy (dbegin d) (buf d) ;
  shrink_capacity (Deque b (if S (dbegin d) =? icap d then 0 else S (dbegin d)) (dend d)).
Definition pop_back (d : deque) : option deque :=
  let e := if dend d =? 0 then icap d - 1 else dend d - 1 in
  do b <- destroy e (buf d) ; shrink_capacity (Deque b (dbegin d) e).
(** circular_deque.h:607-610 reserve; 617-626 shrink_to_fit. *)
Definition reserve (n : nat) (d : deque) : option deque :=
  if capacity d <? n then set_capacity_to n d else Some d.
Definition shrink_to_fit (d : deque) : option deque :=
  if is_empty d then
    if icap d =? 0 then Some d else do _u <- release (buf d) ; Some (Deque [] (dbegin d) (dend d))
  else set_capacity_to (size d) d.

(** A loop of emplace_back over a list of values. *)
Fixpoint emplace_back_list (xs : list T) (d : deque) : option deque :=
  match xs with [] => Some d | x :: r => do d1 <- emplace_back x d ; emplace_back_list r d1 end.
(** circular_deque.h:672-688 resize(count, value); 651-671 resize(count) is the same with the default value.
    [while (size() < count) emplace_back(value)], [None] when [fuel] steps are not enough. *)
Fixpoint emplace_back_until (fuel n : nat) (x : T) (d : deque) : option deque :=
  if size d <? n then match fuel with 0 => None | S f => do d1 <- emplace_back x d ; emplace_back_until f n x d1 end
  else Some d.
Definition resize (n : nat) (x : T) (d : deque) : option deque :=
  if size d <? n then do d1 <- expand_capacity (n - size d) d ; emplace_back_until (n - size d) n x d1
  else if n <? size d then
    let ne := (dbegin d + n) mod icap d in
    do b <- destruct_range ne (dend d) (buf d) ; shrink_capacity (Deque b (dbegin d) ne)
  else Some d.
(** circular_deque.h:499-505 assign(count, value); 508-518 assign(first, last); 520-523 assign(init list). *)
Definition assign_n (n : nat) (x : T) (d : deque) : option deque :=
  do d1 <- clear_retain d ; do d2 <- reserve n d1 ; emplace_back_list (repeat x n) d2.
Definition assign (xs : list T) (d : deque) : option deque :=
  do d1 <- clear_retain d ; emplace_back_list xs d1.
Definition assign_init (xs : list T) (d : deque) : option deque :=
  do d1 <- reserve (length xs) d ; assign xs d1.

(** circular_deque.h:1034-1063 MakeRoomFor: the deque with a hole, and the indices of its first cell and of the
    cell after it. *)
Fixpoint shift_right (fuel src dest stop : nat) (b : cells) : option cells :=
  if src =? stop then Some b else
  match fuel with
  | 0 => None
  | S f => let s := decrement (length b) src in let t := decrement (length b) dest in
           do b' <- move1 s t b ; shift_right f s t stop b'
  end.
Definition make_room_for (count pos : nat) (d : deque) : option (deque * nat * nat) :=
  if count =? 0 then Some (d, pos, pos) else
  let begin_offset := offset_from_begin d pos in
  do d1 <- expand_capacity count d ;
  let ib := (dbegin d1 + begin_offset) mod icap d1 in
  let ie := (ib + count) mod icap d1 in
  let ne := (dend d1 + count) mod icap d1 in
  do b <- shift_right (icap d1) (dend d1) ne ib (buf d1) ;
  Some (Deque b (dbegin d1) ne, ib, ie).
(** circular_deque.h:713-717 and 750-755: [while (insert_cur < insert_end)] constructing successive values;
    [None] when the list of values or the fuel it provides does not match the hole. *)
Fixpoint fill (d : deque) (cur stop : nat) (xs : list T) : option deque :=
  if offset_from_begin d cur <? offset_from_begin d stop then
    match xs with
    | [] => None
    | x :: r => do b <- construct cur x (buf d) ;
                fill (Deque b (dbegin d) (dend d)) (increment (icap d) cur) stop r
    end
  else Some d.
Fixpoint push_front_n (n : nat) (x : T) (d : deque) : option deque :=
  match n with 0 => Some d | S m => do d1 <- emplace_front x d ; push_front_n m x d1 end.
(** circular_deque.h:700-719 insert(pos, count, value). *)
Definition insert_n (pos count : nat) (x : T) (d : deque) : option deque :=
  if pos =? dbegin d then do d1 <- expand_capacity count d ; push_front_n count x d1
  else match make_room_for count pos d with
       | Some (d1, ib, ie) => fill d1 ib ie (repeat x count)
       | None => None
       end.
(** circular_deque.h:723-758 insert(pos, first, last). *)
Definition insert (pos : nat) (xs : list T) (d : deque) : option deque :=
  match xs with
  | [] => Some d
  | _ =>
    if pos =? dbegin d then
      do d1 <- expand_capacity (length xs) d ;
      let nb := (dbegin d1 + icap d1 - length xs) mod icap d1 in
      fill (Deque (buf d1) nb (dend d1)) nb (dbegin d1) xs
    else match make_room_for (length xs) pos d with
         | Some (d1, ib, ie) => fill d1 ib ie xs
         | None => None
         end
  end.
(** circular_deque.h:768-787 emplace (and insert of one value): also returns the iterator. *)
Definition emplace (pos : nat) (x : T) (d : deque) : option (deque * nat) :=
  if pos =? dbegin d then do d1 <- emplace_front x d ; Some (d1, dbegin d1)
  else match make_room_for 1 pos d with
       | Some (d1, ib, _) => do b <- construct ib x (buf d1) ; Some (Deque b (dbegin d1) (dend d1), ib)
       | None => None
       end.
(** circular_deque.h:796-840 erase(first, last): also returns the iterator. *)
Fixpoint shift_left (fuel : nat) (d : deque) (src dest : nat) (b : cells) : option (cells * nat) :=
  if offset_from_begin d src <? offset_from_begin d (dend d) then
    match fuel with
    | 0 => None
    | S f => do b' <- move1 src dest b ; shift_left f d (increment (icap d) src) (increment (icap d) dest) b'
    end
  else Some (b, dest).
Definition erase (first last : nat) (d : deque) : option (deque * nat) :=
  if first =? last then Some (d, first) else
  match (if first <? last then destruct_cells first (last - first) (buf d)
         else do b <- destruct_cells first (icap d - first) (buf d) ; destruct_cells 0 last b) with
  | None => None
  | Some b =>
    if first =? dbegin d then Some (Deque b last (dend d), last)
    else match shift_left (icap d) d last first b with
         | Some (b', e) => Some (Deque b' (dbegin d) e, first)
         | None => None
         end
  end.

(** circular_deque.h:447-449 copy constructor (reads the other deque by iterator). *)
Definition copy_construct (other : deque) : option deque :=
  do xs <- elements other ; emplace_back_list xs (Deque (repeat None (size other + 1)) 0 0).
(** circular_deque.h:466-473 copy assignment from a different deque. *)
Definition copy_assign (d other : deque) : option deque :=
  do d1 <- reserve (size other) d ; do xs <- elements other ; assign xs d1.
(** circular_deque.h:450-456 move constructor: the new deque and what is left of the source. *)
Definition move_construct (other : deque) : deque * deque := (other, Deque [] 0 0).
(** circular_deque.h:474-491 move assignment from a different deque: the buffer overwritten is released. *)
Definition move_assign (d other : deque) : option (deque * deque) :=
  do d1 <- clear_retain d ; do _u <- release (buf d1) ; Some (other, Deque [] 0 0).
(** circular_deque.h:908-913 swap. *)
Definition swap (a b : deque) : deque * deque := (b, a).
(** circular_deque.h:460 destructor, followed by that of the buffer. *)
Definition destructor (d : deque) : option unit :=
  do b <- destruct_range (dbegin d) (dend d) (buf d) ; release b.

(** push_back(const T& value) and push_front where [value] is a reference to the deque's own element [i]
    (circular_deque.h:846-850 with 852-873): the argument is read after the capacity has been expanded.  [None] when
    the buffer the reference points into has been replaced, and freed, by then. *)
Definition push_back_own (i : nat) (d : deque) : option deque :=
  do d1 <- expand_capacity 1 d ;
  do x <- (if size d + 1 <=? capacity d then at_ i d1 else None) ;
  do b <- construct (dend d1) x (buf d1) ;
  Some (Deque b (dbegin d1) (if dend d1 =? icap d1 - 1 then 0 else S (dend d1))).

(** A history of operations.  Iterator arguments are begin() + k. *)
Inductive op :=
| PushBack (x : T) | PushFront (x : T) | PopBack | PopFront
| InsertN (k n : nat) (x : T) | Insert (k : nat) (xs : list T) | Emplace (k : nat) (x : T) | Erase (i j : nat)
| Resize (n : nat) (x : T) | Reserve (n : nat) | ShrinkToFit | Clear
| AssignN (n : nat) (x : T) | Assign (xs : list T) | AssignInit (xs : list T).
Definition step (o : op) (d : deque) : option deque :=
  match o with
  | PushBack x => emplace_back x d
  | PushFront x => emplace_front x d
  | PopBack => pop_back d
  | PopFront => pop_front d
  | InsertN k n x => insert_n (iter_at d k) n x d
  | Insert k xs => insert (iter_at d k) xs d
  | Emplace k x => option_map fst (emplace (iter_at d k) x d)
  | Erase i j => option_map fst (erase (iter_at d i) (iter_at d j) d)
  | Resize n x => resize n x d
  | Reserve n => reserve n d
  | ShrinkToFit => shrink_to_fit d
  | Clear => clear d
  | AssignN n x => assign_n n x d
  | Assign xs => assign xs d
  | AssignInit xs => assign_init xs d
  end.
Fixpoint run (os : list op) (d : deque) : option deque :=
  match os with [] => Some d | o :: r => do d1 <- step o d ; run r d1 end.

(** A program over several deque variables: operations on one of them, copies, moves and swaps between them.
    Self copy- and move-assignment return early (circular_deque.h:467, 475). *)
Inductive sop :=
| On (i : nat) (o : op) | CopyNew (i : nat) | CopyTo (i j : nat) | MoveNew (i : nat) | MoveTo (i j : nat) | SwapOp (i j : nat).
Definition sstep (o : sop) (ds : list deque) : option (list deque) :=
  match o with
  | On i o => do d <- nth_error ds i ; do d1 <- step o d ; Some (set_nth i d1 ds)
  | CopyNew i => do d <- nth_error ds i ; do d1 <- copy_construct d ; Some (ds ++ [d1])
  | CopyTo i j => do d <- nth_error ds i ; do e <- nth_error ds j ;
                  if i =? j then Some ds else do d1 <- copy_assign d e ; Some (set_nth i d1 ds)
  | MoveNew i => do d <- nth_error ds i ; let (a, b) := move_construct d in Some (set_nth i b ds ++ [a])
  | MoveTo i j => do d <- nth_error ds i ; do e <- nth_error ds j ;
                  if i =? j then Some ds else do (a, b) <- move_assign d e ; Some (set_nth j b (set_nth i a ds))
  | SwapOp i j => do d <- nth_error ds i ; do e <- nth_error ds j ;
                  let (a, b) := swap d e in Some (set_nth j b (set_nth i a ds))
  end.
Fixpoint srun (os : list sop) (ds : list deque) : option (list deque) :=
  match os with [] => Some ds | o :: r => do d1 <- sstep o ds ; srun r d1 end.
End Deque.
Arguments Deque {T}. Arguments buf {T}. Arguments dbegin {T}. Arguments dend {T}.
Arguments PushBack {T}. Arguments PushFront {T}. Arguments PopBack {T}. Arguments PopFront {T}.
Arguments InsertN {T}. Arguments Insert {T}. Arguments Emplace {T}. Arguments Erase {T}.
Arguments Resize {T}. Arguments Reserve {T}. Arguments ShrinkToFit {T}. Arguments Clear {T}.
Arguments AssignN {T}. Arguments Assign {T}. Arguments AssignInit {T}.
Arguments On {T}. Arguments CopyNew {T}. Arguments CopyTo {T}. Arguments MoveNew {T}. Arguments MoveTo {T}. Arguments SwapOp {T}.
