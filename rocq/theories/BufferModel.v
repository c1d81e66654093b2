(** Model of tachyon/base/buffer: ReadOnlyBuffer, Buffer, VectorBuffer/StringBuffer growth, and the Copyable
    serialisers of copyable.h. Bytes are integers in [0, 256); size_t is 64 bits; the host is little
    endian. Only definitions. *)
From Coq Require Import ZArith List Bool.
Import ListNotations.
Open Scope Z_scope.

(** base/endian.h:10-14 *)
Inductive endian := Native | Big | Little.

(** read_only_buffer.h:212-216 endian_, buffer_offset_, and the buffer_len_ bytes at buffer_. [growable]
    tells Buffer (Grow returns false, buffer.h:134) from VectorBuffer and StringBuffer (Grow resizes the
    owned storage to exactly [size], vector_buffer.h:42-46, string_buffer.h:30-35; allocation is
    assumed to succeed). *)
Record buffer := Buf { bytes : list Z; off : Z; end_ : endian; growable : bool }.

Definition len {A} (l : list A) : Z := Z.of_nat (length l).
Definition set_off (o : Z) (b : buffer) : buffer := Buf (bytes b) o (end_ b) (growable b).

(** base::CheckedNumeric<size_t> len + size, AssignIfValid. *)
Definition checked_add (a b : Z) : option Z := if a + b <? 2 ^ 64 then Some (a + b) else None.

(** std::vector::resize: new elements are zero. *)
Definition resize (n : Z) (l : list Z) : list Z :=
  firstn (Z.to_nat n) l ++ repeat 0 (Z.to_nat n - length l).
(** memcpy of [d] to offset [o]. *)
Definition store (o : Z) (d l : list Z) : list Z :=
  firstn (Z.to_nat o) l ++ d ++ skipn (Z.to_nat o + length d) l.
Definition load (o n : Z) (l : list Z) : list Z := firstn (Z.to_nat n) (skipn (Z.to_nat o) l).

(** buffer.cc:9-19 Buffer::WriteAt(offset, ptr, size). The result is the returned bool and the new state. *)
Definition write_bytes_at (b : buffer) (o : Z) (d : list Z) : bool * buffer :=
  match checked_add o (len d) with
  | None => (false, b)
  | Some needed =>
      if (len (bytes b) <? needed) && negb (growable b) then (false, b)
      else
        let l := if len (bytes b) <? needed then resize needed (bytes b) else bytes b in
        (true, Buf (store o d l) (o + len d) (end_ b) (growable b))
  end.
(** read_only_buffer.cc:7-19 ReadOnlyBuffer::ReadAt(offset, ptr, size). *)
Definition read_bytes_at (b : buffer) (o n : Z) : option (list Z) * buffer :=
  match checked_add o n with
  | None => (None, b)
  | Some needed =>
      if len (bytes b) <? needed then (None, b)
      else (Some (load o n (bytes b)), set_off (o + n) b)
  end.

(** absl::little_endian::Store{16,32,64}, absl::big_endian::Store and the matching Loads on [w] bytes. *)
Fixpoint le_bytes (w : nat) (v : Z) : list Z :=
  match w with O => [] | S w' => v mod 256 :: le_bytes w' (v / 256) end.
Fixpoint le_value (l : list Z) : Z := match l with [] => 0 | x :: r => x + 256 * le_value r end.
Definition be_bytes (w : nat) (v : Z) : list Z := rev (le_bytes w v).
Definition be_value (l : list Z) : Z := le_value (rev l).

(** The integer widths of the fundamental types: sizeof(T) is 1, 2, 4 or 8. *)
Inductive width := W1 | W2 | W4 | W8.
Definition size_of (w : width) : nat := match w with W1 => 1 | W2 => 2 | W4 => 4 | W8 => 8 end.

(** buffer.h:84-109 WriteAt(offset, T value) for unsigned integers (signed ones have the same bytes):
    the switch on endian_ for 2, 4 and 8 bytes, the plain byte copy for one byte. buffer.cc:21-57 the
    WriteNNBEAt and WriteNNLEAt macros repeat the checks of WriteAt. *)
Definition write_int_at (b : buffer) (o : Z) (w : width) (v : Z) : bool * buffer :=
  match w, end_ b with
  | W1, _ => write_bytes_at b o (le_bytes 1 v)
  | _, Big => write_bytes_at b o (be_bytes (size_of w) v)
  | _, Little => write_bytes_at b o (le_bytes (size_of w) v)
  | _, Native => write_bytes_at b o (le_bytes (size_of w) v)
  end.
(** read_only_buffer.h:83-113 ReadAt(offset, T* ptr): for one byte every case of the switch falls through to the
    byte copy. read_only_buffer.cc:21-61 the ReadNN macros. *)
Definition read_int_at (b : buffer) (o : Z) (w : width) : option Z * buffer :=
  match w, end_ b with
  | W1, _ =>
      match read_bytes_at b o 1 with (Some l, b') => (Some (le_value l), b') | (None, b') => (None, b') end
  | _, Big =>
      match read_bytes_at b o (Z.of_nat (size_of w)) with
      | (Some l, b') => (Some (be_value l), b')
      | (None, b') => (None, b')
      end
  | _, _ =>
      match read_bytes_at b o (Z.of_nat (size_of w)) with
      | (Some l, b') => (Some (le_value l), b')
      | (None, b') => (None, b')
      end
  end.

(** read_only_buffer.h:133-149 ReadPtrAt: the product sizeof(T) * ptr_num wraps. The result is the number of
    bytes of the buffer the caller may now access through the pointer according to the code, namely
    sizeof(T) * ptr_num elements starting at the offset. *)
Definition read_ptr_at (b : buffer) (o elem_size num : Z) : option (Z * Z) * buffer :=
  let size := (elem_size * num) mod 2 ^ 64 in
  match checked_add o size with
  | None => (None, b)
  | Some needed =>
      if len (bytes b) <? needed then (None, b)
      else (Some (o, elem_size * num), set_off (o + size) b)
  end.

(** The serialisable types: integers and enums (copyable.h:28-43), std::basic_string with characters of the
    given width (64-86), T[N] and std::array<T, N> (112-139, 168-191), std::vector (141-166), structures
    written with WriteMany and read with ReadMany (for instance math/geometry/point2.h:51-64,
    univariate_sparse_coefficients.h:324-342), and Eigen matrices (math/matrix/matrix_types.h:56-96), where
    [Some] is a fixed dimension. A BigInt<N> is [TArr N (TInt W8)] (big_int.h:1168-1181). *)
Inductive ty :=
| TInt (w : width)
| TStr (char_width : width)
| TArr (n : nat) (t : ty)
| TVec (t : ty)
| TPair (a b : ty)
| TMat (rows cols : option Z) (t : ty).
Fixpoint den (t : ty) : Type :=
  match t with
  | TInt _ => Z
  | TStr _ => list Z
  | TArr _ t => list (den t)
  | TVec t => list (den t)
  | TPair a b => den a * den b
  | TMat _ _ t => Z * Z * list (den t)
  end.

Fixpoint write_list {A} (wr : A -> buffer -> bool * buffer) (l : list A) (b : buffer) : bool * buffer :=
  match l with
  | [] => (true, b)
  | x :: r => match wr x b with (true, b') => write_list wr r b' | (false, b') => (false, b') end
  end.
Fixpoint read_list {A} (rd : buffer -> option A * buffer) (n : nat) (b : buffer) : option (list A) * buffer :=
  match n with
  | O => (Some [], b)
  | S n' =>
      match rd b with
      | (None, b') => (None, b')
      | (Some x, b') =>
          match read_list rd n' b' with (Some r, b'') => (Some (x :: r), b'') | (None, b'') => (None, b'') end
      end
  end.
Definition write_int (w : width) (v : Z) (b : buffer) := write_int_at b (off b) w v.
Definition read_int (w : width) (b : buffer) := read_int_at b (off b) w.
(** The object representation of a string's characters. *)
Definition char_bytes (cw : width) (s : list Z) : list Z := concat (map (le_bytes (size_of cw)) s).

(** Buffer::Write(value) for each type. *)
Fixpoint write (t : ty) : den t -> buffer -> bool * buffer :=
  match t with
  | TInt w => fun v b => write_int w v b
  | TStr cw => fun v b => (* value.size() bytes, whatever the character width *)
      match write_int W8 (len v) b with
      | (true, b1) => write_bytes_at b1 (off b1) (firstn (length v) (char_bytes cw v))
      | (false, b1) => (false, b1)
      end
  | TArr n t => fun v b => write_list (write t) v b
  | TVec t => fun v b =>
      match write_int W8 (len v) b with
      | (true, b1) => write_list (write t) v b1
      | (false, b1) => (false, b1)
      end
  | TPair ta tb => fun v b =>
      match write ta (fst v) b with
      | (true, b1) => write tb (snd v) b1
      | (false, b1) => (false, b1)
      end
  | TMat _ _ t => fun v b =>
      match write_int W8 (fst (fst v)) b with
      | (true, b1) =>
          match write_int W8 (snd (fst v)) b1 with
          | (true, b2) => write_list (write t) (snd v) b2
          | (false, b2) => (false, b2)
          end
      | (false, b1) => (false, b1)
      end
  end.

(** Characters of width cw from the object representation of a string of [n] of them. *)
Fixpoint chars (cw : nat) (n : nat) (l : list Z) : list Z :=
  match n with O => [] | S n' => le_value (firstn cw l) :: chars cw n' (skipn cw l) end.
Definition dim_ok (d : option Z) (v : Z) : bool := match d with None => true | Some x => x =? v end.

(** ReadOnlyBuffer::Read(&value) for each type; vector and string resize to the size read (allocation is
    assumed to succeed). *)
Fixpoint read (t : ty) : buffer -> option (den t) * buffer :=
  match t return buffer -> option (den t) * buffer with
  | TInt w => fun b => read_int w b
  | TStr cw => fun b =>
      match read_int W8 b with
      | (None, b1) => (None, b1)
      | (Some n, b1) =>
          match read_bytes_at b1 (off b1) n with
          | (None, b2) => (None, b2)
          | (Some d, b2) =>
              (Some (chars (size_of cw) (Z.to_nat n)
                       (d ++ repeat 0 (Z.to_nat n * size_of cw - length d))), b2)
          end
      end
  | TArr n t => fun b => read_list (read t) n b
  | TVec t => fun b =>
      match read_int W8 b with
      | (None, b1) => (None, b1)
      | (Some n, b1) => read_list (read t) (Z.to_nat n) b1
      end
  | TPair ta tb => fun b =>
      match read ta b with
      | (None, b1) => (None, b1)
      | (Some x, b1) => match read tb b1 with (None, b2) => (None, b2) | (Some y, b2) => (Some (x, y), b2) end
      end
  | TMat dr dc t => fun b =>
      match read_int W8 b with
      | (None, b1) => (None, b1)
      | (Some r, b1) =>
          match read_int W8 b1 with
          | (None, b2) => (None, b2)
          | (Some c, b2) =>
              if dim_ok dr r && dim_ok dc c then
                match read_list (read t) (Z.to_nat (r * c)) b2 with
                | (None, b3) => (None, b3)
                | (Some l, b3) => (Some (r, c, l), b3)
                end
              else (None, b2)
          end
      end
  end.

(** buffer.h:111-117 WriteAt(offset, value) of a non-builtin type: move, then write. *)
Definition write_at (t : ty) (o : Z) (v : den t) (b : buffer) : bool * buffer :=
  match t return den t -> bool * buffer with
  | TInt w => fun v => write_int_at b o w v
  | t => fun v => write t v (set_off o b)
  end v.
(** buffer.h:119-130 WriteManyAt: the offset is passed on unchanged. *)
Fixpoint write_many_at (o : Z) (l : list {t : ty & den t}) (b : buffer) : bool * buffer :=
  match l with
  | [] => (true, b)
  | existT _ t v :: r =>
      match write_at t o v b with (true, b') => write_many_at o r b' | (false, b') => (false, b') end
  end.
(** buffer.h:54-64 WriteMany. *)
Fixpoint write_many (l : list {t : ty & den t}) (b : buffer) : bool * buffer :=
  match l with
  | [] => (true, b)
  | existT _ t v :: r =>
      match write t v b with (true, b') => write_many r b' | (false, b') => (false, b') end
  end.

(** EstimateSize. std::accumulate over T[N] and std::array starts from the int literal 0, so the
    accumulator is a 32-bit signed integer; over std::vector it starts from sizeof(size_t). *)
Definition to_int32 (x : Z) : Z := (x + 2 ^ 31) mod 2 ^ 32 - 2 ^ 31.
Definition u64 (x : Z) : Z := x mod 2 ^ 64.
(** sizeof of the field types stored in matrices (integers, arrays of them and structures without
    padding). *)
Fixpoint sizeof (t : ty) : Z :=
  match t with
  | TInt w => Z.of_nat (size_of w)
  | TArr n t => Z.of_nat n * sizeof t
  | TPair a b => sizeof a + sizeof b
  | _ => 0
  end.
Fixpoint estimate (t : ty) : den t -> Z :=
  match t with
  | TInt w => fun _ => Z.of_nat (size_of w)
  | TStr _ => fun v => u64 (8 + len v)
  | TArr n t => fun v => u64 (fold_left (fun acc x => to_int32 (u64 (u64 acc + estimate t x))) v 0)
  | TVec t => fun v => fold_left (fun acc x => u64 (acc + estimate t x)) v 8
  | TPair a b => fun v => u64 (estimate a (fst v) + estimate b (snd v))
  | TMat _ _ t => fun v => u64 (len (snd v) * sizeof t + 16)
  end.
