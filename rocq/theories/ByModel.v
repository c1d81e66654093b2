(** Model of math/base/byinverter.h: the signed big integers CInt<62, L> and the Bernstein-Yang inverter. Only definitions.
    Arrays of chunks are lists, least significant chunk first. uint64_t arithmetic wraps ([u64]); int64_t results are wrapped too ([i64]);
    the proofs show that they never overflow. *)
From Coq Require Import ZArith List Bool.
Import ListNotations.
Open Scope Z_scope.

Definition u64 (z : Z) : Z := z mod 2 ^ 64.
Definition i64 (z : Z) : Z := (z + 2 ^ 63) mod 2 ^ 64 - 2 ^ 63.
(** byinverter.h:28 MASK for B = 62. *)
Definition MASK : Z := 2 ^ 62 - 1.

(** byinverter.h:217-236 Convert<I, O>. The loop reads input[bits / I], below isize since bits < isize * I. *)
Fixpoint upd (l : list Z) (i : nat) (f : Z -> Z) : list Z :=
  match l, i with
  | [], _ => []
  | x :: r, O => f x :: r
  | x :: r, S j => x :: upd r j f
  end.
Fixpoint convert_loop (fuel : nat) (I O total bits : nat) (input output : list Z) : list Z :=
  match fuel with
  | 0%nat => output
  | S fuel' =>
      if Nat.ltb bits total then
        let i := Nat.modulo bits I in
        let o := Nat.modulo bits O in
        let output' := upd output (Nat.div bits O)
          (fun w => Z.lor w (u64 (Z.shiftl (Z.shiftr (nth (Nat.div bits I) input 0) (Z.of_nat i)) (Z.of_nat o)))) in
        convert_loop fuel' I O total (bits + Nat.min (I - i) (O - o)) input output'
      else output
  end.
Definition convert (I O : nat) (input : list Z) (osize : nat) : list Z :=
  let total := Nat.min (length input * I) (osize * O) in
  let output := convert_loop total I O total 0 input (repeat 0 osize) in
  let filled := Nat.div (total + O - 1) O in
  map (fun w => Z.land w (2 ^ Z.of_nat O - 1)) (firstn filled output) ++ skipn filled output.

(** byinverter.h:34-48 Load of an int64_t. *)
Definition load_int (input : Z) (L : nat) : list Z :=
  let data := convert 64 62 [u64 input] L in
  if Nat.ltb 64 (62 * L) && (input <? 0) then
    firstn 1 data ++ map (fun w => Z.lor w (Z.land (u64 (Z.shiftl (2 ^ 64 - 1) 2)) MASK)) (firstn 1 (skipn 1 data))
      ++ repeat MASK (L - 2)
  else data.
(** byinverter.h:121-130 operator+. *)
Fixpoint add_carry (carry : Z) (xs ys : list Z) : list Z :=
  match xs, ys with
  | x :: xs', y :: ys' =>
      let sum := u64 (x + y + carry) in
      Z.land sum MASK :: add_carry (Z.shiftr sum 62) xs' ys'
  | _, _ => []
  end.
Definition c_add (xs ys : list Z) : list Z := add_carry 0 xs ys.
(** byinverter.h:150-161 operator- (unary). *)
Fixpoint neg_carry (carry : Z) (xs : list Z) : list Z :=
  match xs with
  | x :: xs' =>
      let sum := u64 (Z.lxor x MASK + carry) in
      Z.land sum MASK :: neg_carry (Z.shiftr sum 62) xs'
  | [] => []
  end.
Definition c_neg (xs : list Z) : list Z := neg_carry 1 xs.
(** byinverter.h:177-203 operator* by an int64_t. *)
Fixpoint mul_carry (mask other carry : Z) (xs : list Z) : list Z :=
  match xs with
  | x :: xs' =>
      let sum := (Z.lxor x mask * other + carry) mod 2 ^ 128 in
      u64 (Z.land sum MASK) :: mul_carry mask other (u64 (Z.shiftr sum 62)) xs'
  | [] => []
  end.
Definition c_mul (xs : list Z) (other : Z) : list Z :=
  if other <? 0 then mul_carry MASK (i64 (- other)) (u64 (i64 (- other))) xs else mul_carry 0 other 0 xs.
(** byinverter.h:90-93 Lowest and IsNegative. *)
Definition lowest (xs : list Z) : Z := nth 0 xs 0.
Definition is_negative (xs : list Z) : bool := Z.shiftr MASK 1 <? nth (length xs - 1) xs 0.
(** byinverter.h:97-106 Shift. *)
Definition c_shift (xs : list Z) : list Z := tl xs ++ [if is_negative xs then MASK else 0].
(** byinverter.h:108-115 operator==. *)
Fixpoint c_eqb (xs ys : list Z) : bool :=
  match xs, ys with
  | x :: xs', y :: ys' => (x =? y) && c_eqb xs' ys'
  | _, _ => true
  end.
(** byinverter.h:55-60 Load and 82-87 Save of a BigInt (sign false). *)
Definition load (limbs : list Z) (L : nat) : list Z := convert 64 62 limbs L.
Definition save (xs : list Z) (N : nat) : list Z := convert 62 64 (if is_negative xs then c_neg xs else xs) N.

(** base/bits.h CountTrailingZeroBits of a uint64_t. *)
Fixpoint ctz_pos (p : positive) : Z := match p with xO q => 1 + ctz_pos q | _ => 0 end.
Definition ctz (g : Z) : Z := match g with Zpos p => ctz_pos p | _ => 64 end.

Definition mat : Type := Z * Z * Z * Z.
(** byinverter.h:335-376: the loop of Jump. None: not finished within the given number of iterations. *)
Fixpoint jump_loop (fuel : nat) (f g delta steps : Z) (t : mat) : option (Z * mat) :=
  match fuel with
  | O => None
  | S fuel' =>
      let '(t00, t01, t10, t11) := t in
      let zeros := Z.min (ctz g) steps in
      let steps := steps - zeros in
      let delta := i64 (delta + zeros) in
      let g := Z.shiftr g zeros in
      let t00 := i64 (Z.shiftl t00 zeros) in
      let t01 := i64 (Z.shiftl t01 zeros) in
      if steps =? 0 then Some (delta, (t00, t01, t10, t11))
      else
        let '(delta, f, g, (t00, t01, t10, t11)) :=
          if 0 <? delta then (i64 (- delta), g, u64 (- f), (t10, t11, i64 (- t00), i64 (- t01)))
          else (delta, f, g, (t00, t01, t10, t11)) in
        let mask := Z.shiftl 1 (Z.min (Z.min steps (i64 (1 - delta))) 5) - 1 in
        let w := Z.land (u64 (g * Z.lxor (u64 (3 * f)) 28)) mask in
        let t10 := i64 (u64 (t00 * w + t10)) in
        let t11 := i64 (u64 (t01 * w + t11)) in
        let g := u64 (g + w * f) in
        jump_loop fuel' f g delta steps (t00, t01, t10, t11)
  end.
(** byinverter.h:328-334 Jump. Every iteration but the first consumes a step. *)
Definition jump (f g delta : Z) : option (Z * mat) := jump_loop 64 f g delta 62 (1, 0, 0, 1).
(** byinverter.h:384-389 FG. *)
Definition fg (f g : list Z) (t : mat) : list Z * list Z :=
  let '(t00, t01, t10, t11) := t in
  (c_shift (c_add (c_mul f t00) (c_mul g t01)), c_shift (c_add (c_mul f t10) (c_mul g t11))).
(** byinverter.h:397-411 DE. *)
Definition de_row (modulus : list Z) (inverse62 : Z) (d e : list Z) (a b : Z) : list Z :=
  let md := i64 (a * Z.b2z (is_negative d) + b * Z.b2z (is_negative e)) in
  let cd := Z.land (u64 (a * lowest d + b * lowest e)) MASK in
  let md := i64 (md - Z.land (u64 (cd * inverse62 + md)) MASK) in
  c_shift (c_add (c_add (c_mul d a) (c_mul e b)) (c_mul modulus md)).
Definition de (modulus : list Z) (inverse62 : Z) (d e : list Z) (t : mat) : list Z * list Z :=
  let '(t00, t01, t10, t11) := t in
  (de_row modulus inverse62 d e t00 t01, de_row modulus inverse62 d e t10 t11).
(** byinverter.h:417-426 Norm. *)
Definition norm (modulus value : list Z) (negate : bool) : list Z :=
  let result := if is_negative value then c_add value modulus else value in
  let result := if negate then c_neg result else result in
  if is_negative result then c_add result modulus else result.
(** byinverter.h:434-444 Invert62. *)
Definition invert62 (value : Z) : Z :=
  let x := Z.lxor (u64 (3 * value)) 2 in
  let y := u64 (1 - u64 (x * value)) in
  let x := u64 (x * u64 (y + 1)) in
  let y := u64 (y * y) in
  let x := u64 (x * u64 (y + 1)) in
  let y := u64 (y * y) in
  let x := u64 (x * u64 (y + 1)) in
  let y := u64 (y * y) in
  Z.land (u64 (x * u64 (y + 1))) MASK.

(** byinverter.h:302 the number of chunks, for BigInts of N limbs. *)
Definition chunks (N : nat) : nat := ((64 * (N + 1) + 61) / 62)%nat.
(** byinverter.h:265-268 the inverter. *)
Record inverter : Type := mkinv { modulus : list Z; adjuster : list Z; inverse62 : Z }.
Definition make (N : nat) (m a : list Z) : inverter :=
  mkinv (load m (chunks N)) (load a (chunks N)) (invert62 (nth 0 m 0)).
(** byinverter.h:281-285: the loop of Invert, at most [fuel] rounds. *)
Fixpoint invert_loop (fuel : nat) (v : inverter) (delta : Z) (f g d e : list Z) : option (list Z * list Z) :=
  if c_eqb g (load_int 0 (length g)) then Some (f, d)
  else
    match fuel with
    | O => None
    | S fuel' =>
        match jump (lowest f) (lowest g) delta with
        | None => None
        | Some (delta', t) =>
            let '(f', g') := fg f g t in
            let '(d', e') := de (modulus v) (inverse62 v) d e t in
            invert_loop fuel' v delta' f' g' d' e'
        end
    end.
(** byinverter.h:274-296 Invert. None: the loop has not ended after [fuel] rounds; Some None: false is returned. *)
Definition invert (fuel : nat) (N : nat) (v : inverter) (input : list Z) : option (option (list Z)) :=
  let L := chunks N in
  match invert_loop fuel v 1 (modulus v) (load input L) (load_int 0 L) (adjuster v) with
  | None => None
  | Some (f, d) =>
      let antiunit := c_eqb f (load_int (-1) L) in
      if c_eqb f (load_int 1 L) || antiunit then Some (Some (save (norm (modulus v) d antiunit) N)) else Some None
  end.
(** prime_field_fallback.h:48-49 the inverter of a prime field, and 310-325 Inverse and InverseInPlace on the Montgomery
    representation; [r2] is Config::kMontgomeryR2. *)
Definition field_inverse (fuel N : nat) (m r2 x : list Z) : option (option (list Z)) := invert fuel N (make N m r2) x.
