(** The affine group law of y^2 = x^3 + a x + b, and what each kind of point stands for. *)
From Coq Require Import ZArith List Bool.
From Verif Require Import Field ECModel.
Open Scope fld_scope.

(** A point of the curve: [None] is the point at infinity. *)
Definition point (K : fld) : Type := option (K * K).
Definition on_curve {K : fld} (a b : K) (P : point K) : Prop :=
  match P with None => True | Some (x, y) => y * y = x * x * x + a * x + b end.
Definition minus {K : fld} (P : point K) : point K :=
  match P with None => None | Some (x, y) => Some (x, - y) end.
(** The third point on the line of slope [l] through (x1, y1) and the one at x2, mirrored. *)
Definition third {K : fld} (l x1 y1 x2 : K) : point K :=
  let x3 := l * l - x1 - x2 in Some (x3, l * (x1 - x3) - y1).
(** Chord and tangent. *)
Definition plus {K : fld} (a : K) (P Q : point K) : point K :=
  match P, Q with
  | None, _ => Q
  | _, None => P
  | Some (x1, y1), Some (x2, y2) =>
      if feqb x1 x2 then
        if feqb y1 (- y2) then None
        else third ((x1 * x1 + x1 * x1 + x1 * x1 + a) / (y1 + y1)) x1 y1 x1
      else third ((y2 - y1) / (x2 - x1)) x1 y1 x2
  end.

(** (0, 0) encodes infinity in affine form; the other forms encode it by z = 0. *)
Definition aff {K : fld} (p : affine K) : point K :=
  if feqb (ax p) 0 && feqb (ay p) 0 then None else Some (ax p, ay p).
Definition jac {K : fld} (p : jacobian K) : point K :=
  if feqb (jz p) 0 then None else Some (jx p / (jz p * jz p), jy p / (jz p * jz p * jz p)).
Definition proj {K : fld} (p : projective K) : point K :=
  if feqb (pz p) 0 then None else Some (px p / pz p, py p / pz p).
Definition xyzz_pt {K : fld} (p : xyzz K) : point K :=
  if feqb (xzz p) 0 then None else Some (xx p / xzz p, xy p / xzzz p).
(** In XYZZ form zz and zzz are a square and a cube of the same thing. *)
Definition xyzz_ok {K : fld} (p : xyzz K) : Prop := xzz p * xzz p * xzz p = xzzz p * xzzz p.

(** No OpenMP, or few enough threads that the shift by half their number is defined, and no overflow of size_t. *)
Definition threads_ok (openmp : option Z) (n : nat) : Prop :=
  match openmp with Some threads => (0 < threads < 128)%Z /\ (2 * Z.of_nat n + threads < 2 ^ 64)%Z | None => True end.
