(** Model of the short Weierstrass points of math/elliptic_curves/short_weierstrass/: affine_point.h, affine_point_impl.h, jacobian_point.h,
    jacobian_point_impl.h, projective_point.h, projective_point_impl.h, point_xyzz.h, point_xyzz_impl.h, sw_curve.h. Only definitions.
    [K] is BaseField; [a], [b] are Config::kA, kB; [a0] is Config::kAIsZero; [low] says that ExtensionDegree() is 1 or 2. MulByA(v) is kA * v.
    Methods of the base field are its operations (C20-C31). In-place operations on [*this] are modelled as sequences of field updates, so
    that reading a coordinate after it has been overwritten is visible. Not modelled: CreateFromX (square roots), Random, ToString, JSON. *)
From Coq Require Import ZArith List Bool.
From Verif Require Import Field ParallelizeModel SemigroupModel ExtFieldModel.
Import ListNotations.
Open Scope fld_scope.

Record affine {K : fld} := mkA { ax : K; ay : K }.
Record jacobian {K : fld} := mkJ { jx : K; jy : K; jz : K }.
Record projective {K : fld} := mkP { px : K; py : K; pz : K }.
Record xyzz {K : fld} := mkX { xx : K; xy : K; xzz : K; xzzz : K }.
Arguments affine : clear implicits. Arguments jacobian : clear implicits. Arguments projective : clear implicits. Arguments xyzz : clear implicits.
Arguments mkA {K}. Arguments mkJ {K}. Arguments mkP {K}. Arguments mkX {K}.

Section EC.
  Context {K : fld}.
  Variables (a b : K) (a0 low : bool).
  Notation iszero x := (feqb x 0).
  Notation isone x := (feqb x 1).
  Definition dbl (x : K) : K := x + x.
  Definition sqr (x : K) : K := x * x.

  (** affine_point.h:39, 117-129 *)
  Definition a_zero : affine K := mkA 0 0.
  Definition a_is_zero (p : affine K) : bool := iszero (ax p) && iszero (ay p).
  Definition a_eqb (p q : affine K) : bool :=
    if a_is_zero p then a_is_zero q else if a_is_zero q then false else feqb (ax p) (ax q) && feqb (ay p) (ay q).
  (** affine_point.h:170 Negate *)
  Definition a_neg (p : affine K) : affine K := mkA (ax p) (- ay p).

  (** ** Jacobian points: jacobian_point.h:38-39 Zero, 186 IsZero, 160-182 operator==, 248 Negate *)
  Definition j_zero : jacobian K := mkJ 1 1 0.
  Definition j_is_zero (p : jacobian K) : bool := iszero (jz p).
  Definition j_eqb (p q : jacobian K) : bool :=
    if j_is_zero p then j_is_zero q
    else if j_is_zero q then false
    else let z1z1 := jz p * jz p in
         let z2z2 := jz q * jz q in
         if negb (feqb (jx p * z2z2) (jx q * z1z1)) then false
         else feqb (jy p * (z2z2 * jz q)) (jy q * (z1z1 * jz p)).
  Definition j_neg (p : jacobian K) : jacobian K := mkJ (jx p) (- jy p) (jz p).
  (** affine_point.h:138-141 ToJacobian *)
  Definition a_to_j (p : affine K) : jacobian K := if a_is_zero p then j_zero else mkJ (ax p) (ay p) 1.

  Definition set_jx (p : jacobian K) v := mkJ v (jy p) (jz p).
  Definition set_jy (p : jacobian K) v := mkJ (jx p) v (jz p).
  Definition set_jz (p : jacobian K) v := mkJ (jx p) (jy p) v.
  (** Where a read of [a] goes: to the operand, or to the destination when they are the same object. *)
  Definition same {T} (alias : bool) (p c : T) : T := if alias then c else p.

  (** jacobian_point_impl.h:224-308 DoDoubleImpl(a, b). [c] is the destination before the call, [alias] says that it is the operand. *)
  Definition j_do_double (alias : bool) (p c : jacobian K) : jacobian K :=
    let r c := same alias p c in
    if a0 then
      let vxx := sqr (jx (r c)) in
      let yy := sqr (jy (r c)) in
      let yyyy := sqr yy in
      let d := if low then dbl (dbl (jx (r c) * yy))
               else dbl (sqr (jx (r c) + yy) - vxx - yyyy) in
      let e := dbl vxx + vxx in
      let c := set_jz c (jy (r c) * jz (r c)) in
      let c := set_jz c (dbl (jz c)) in
      let c := set_jx c (sqr e) in
      let c := set_jx c (jx c - dbl d) in
      let c := set_jy c (d - jx c) in
      let c := set_jy c (jy c * e) in
      set_jy c (jy c - dbl (dbl (dbl yyyy)))
    else
      let vxx := sqr (jx (r c)) in
      let yy := sqr (jy (r c)) in
      let yyyy := sqr yy in
      let zz := sqr (jz (r c)) in
      let s := dbl (sqr (jx (r c) + yy) - vxx - yyyy) in
      let m := dbl vxx + vxx + a * sqr zz in
      let c := set_jx c (sqr m) in
      let c := set_jx c (jx c - dbl s) in
      let c := set_jz c (jy (r c) + jz (r c)) in
      let c := set_jz c (dbl (jz c)) in
      let c := set_jy c (s - jx c) in
      let c := set_jy c (jy c * m) in
      set_jy c (jy c - dbl (dbl (dbl yyyy))).
  (** :201-221 DoubleImpl, DoubleImplInPlace *)
  Definition j_double (p : jacobian K) : jacobian K := if j_is_zero p then j_zero else j_do_double false p j_zero.
  Definition j_double_in_place (p : jacobian K) : jacobian K := if j_is_zero p then p else j_do_double true p p.

  (** :44-110 DoAdd(a, b, c) *)
  Definition j_do_add (alias : bool) (p q c : jacobian K) : jacobian K :=
    let r c := same alias p c in
    let z1z1 := sqr (jz (r c)) in
    let z2z2 := sqr (jz q) in
    let u1 := jx (r c) * z2z2 in
    let u2 := jx q * z1z1 in
    let s1 := jy (r c) * jz q * z2z2 in
    let s2 := jy q * jz (r c) * z1z1 in
    if feqb u1 u2 && feqb s1 s2 then (if alias then j_double_in_place c else j_double p)
    else
      let h := u2 - u1 in
      let i := sqr (dbl h) in
      let j := - (h * i) in
      let rr := dbl (s2 - s1) in
      let v := u1 * i in
      let c := set_jx c (sqr rr) in
      let c := set_jx c (jx c + j) in
      let c := set_jx c (jx c - dbl v) in
      let c := set_jy c (sum_of_products_serial [rr; dbl s1] [v - jx c; j]) in
      let c := set_jz c (jz (r c) * jz q) in
      let c := set_jz c (dbl (jz c)) in
      set_jz c (jz c * h).
  (** :15-41 Add, AddInPlace. The right operand of the in-place form is another object, or an equal point is doubled. *)
  Definition j_add (p q : jacobian K) : jacobian K :=
    if j_is_zero p then q else if j_is_zero q then p else j_do_add false p q j_zero.
  Definition j_add_in_place (p q : jacobian K) : jacobian K :=
    if j_is_zero p then q else if j_is_zero q then p else j_do_add true p q p.

  (** :138-198 DoAdd(a, affine b, c) *)
  Definition j_do_madd (alias : bool) (p : jacobian K) (q : affine K) (c : jacobian K) : jacobian K :=
    let r c := same alias p c in
    let z1z1 := sqr (jz (r c)) in
    let u2 := ax q * z1z1 in
    let s2 := ay q * jz (r c) * z1z1 in
    if feqb (jx (r c)) u2 && feqb (jy (r c)) s2 then (if alias then j_double_in_place c else j_double p)
    else
      let h := u2 - jx (r c) in
      let i := dbl (dbl (sqr h)) in
      let j := - (h * i) in
      let rr := dbl (s2 - jy (r c)) in
      let v := jx (r c) * i in
      let c := set_jx c (sqr rr) in
      let c := set_jx c (jx c + j) in
      let c := set_jx c (jx c - dbl v) in
      let c := set_jy c (sum_of_products_serial [rr; dbl (jy (r c))] [v - jx c; j]) in
      let c := set_jz c (jz (r c) * h) in
      set_jz c (dbl (jz c)).
  (** :112-135 *)
  Definition j_madd (p : jacobian K) (q : affine K) : jacobian K :=
    if a_is_zero q then p else if j_is_zero p then a_to_j q else j_do_madd false p q j_zero.
  Definition j_madd_in_place (p : jacobian K) (q : affine K) : jacobian K :=
    if a_is_zero q then p else if j_is_zero p then a_to_j q else j_do_madd true p q p.
  (** affine_point.h:155-157 Add(affine, affine), 162-164 Add(affine, jacobian) *)
  Definition a_add (p q : affine K) : jacobian K := j_add (a_to_j p) (a_to_j q).
  Definition aj_add (p : affine K) (q : jacobian K) : jacobian K := j_add (a_to_j p) q.

  (** ** Projective points: projective_point.h *)
  Definition p_zero : projective K := mkP 1 1 0.
  Definition p_is_zero (p : projective K) : bool := iszero (pz p).
  (** projective_point.h:167-186 *)
  Definition p_eqb (p q : projective K) : bool :=
    if p_is_zero p then p_is_zero q
    else if p_is_zero q then false
    else if negb (feqb (px p * pz q) (px q * pz p)) then false else feqb (py p * pz q) (py q * pz p).
  Definition p_neg (p : projective K) : projective K := mkP (px p) (- py p) (pz p).
  (** affine_point.h:133-136 ToProjective *)
  Definition a_to_p (p : affine K) : projective K := if a_is_zero p then p_zero else mkP (ax p) (ay p) 1.
  Definition set_px (p : projective K) v := mkP v (py p) (pz p).
  Definition set_py (p : projective K) v := mkP (px p) v (pz p).
  Definition set_pz (p : projective K) v := mkP (px p) (py p) v.

  (** projective_point_impl.h:198-251 DoDoubleImpl *)
  Definition p_do_double (alias : bool) (p c : projective K) : projective K :=
    let rd c := same alias p c in
    let vxx := sqr (px (rd c)) in
    let zz := sqr (pz (rd c)) in
    let w := dbl vxx + vxx in
    let w := if a0 then w else w + a * zz in
    let s := dbl (py (rd c) * pz (rd c)) in
    let sss := sqr s * s in
    let r := py (rd c) * s in
    let rr := sqr r in
    let d := sqr (px (rd c) + r) - vxx - rr in
    let h := sqr w - dbl d in
    let c := set_px c (h * s) in
    let c := set_py c (d - h) in
    let c := set_py c (py c * w) in
    let c := set_py c (py c - dbl rr) in
    set_pz c sss.
  (** :175-195 *)
  Definition p_double (p : projective K) : projective K := if p_is_zero p then p_zero else p_do_double false p p_zero.
  Definition p_double_in_place (p : projective K) : projective K := if p_is_zero p then p else p_do_double true p p.
  (** :43-97 DoAdd *)
  Definition p_do_add (alias : bool) (p q c : projective K) : projective K :=
    let rd c := same alias p c in
    let y1z2 := py (rd c) * pz q in
    let x1z2 := px (rd c) * pz q in
    let z1z2 := pz (rd c) * pz q in
    let u := py q * pz (rd c) - y1z2 in
    let v := px q * pz (rd c) - x1z2 in
    if iszero u && iszero v then (if alias then p_double_in_place c else p_double p)
    else
      let vv := sqr v in
      let vvv := v * vv in
      let r := vv * x1z2 in
      let d := sqr u * z1z2 - vvv - dbl r in
      let c := set_px c (v * d) in
      let c := set_py c (sum_of_products_serial [u; - vvv] [r - d; y1z2]) in
      set_pz c (vvv * z1z2).
  (** :14-40 *)
  Definition p_add (p q : projective K) : projective K :=
    if p_is_zero p then q else if p_is_zero q then p else p_do_add false p q p_zero.
  Definition p_add_in_place (p q : projective K) : projective K :=
    if p_is_zero p then q else if p_is_zero q then p else p_do_add true p q p.
  (** :128-172 DoAdd with an affine point *)
  Definition p_do_madd (alias : bool) (p : projective K) (q : affine K) (c : projective K) : projective K :=
    let rd c := same alias p c in
    let u := ay q * pz (rd c) - py (rd c) in
    let v := ax q * pz (rd c) - px (rd c) in
    if iszero u && iszero v then (if alias then p_double_in_place c else p_double p)
    else
      let vv := sqr v in
      let vvv := v * vv in
      let r := vv * px (rd c) in
      let d := sqr u * pz (rd c) - vvv - dbl r in
      let c := set_px c (v * d) in
      let c := set_py c (sum_of_products_serial [u; - vvv] [r - d; py (rd c)]) in
      set_pz c (vvv * pz (rd c)).
  (** :99-125 *)
  Definition p_madd (p : projective K) (q : affine K) : projective K :=
    if p_is_zero p then a_to_p q else if a_is_zero q then p else p_do_madd false p q p_zero.
  Definition p_madd_in_place (p : projective K) (q : affine K) : projective K :=
    if p_is_zero p then a_to_p q else if a_is_zero q then p else p_do_madd true p q p.
  (** affine_point_impl.h:15-65 DoubleProjective *)
  Definition a_double_p (p : affine K) : projective K :=
    if a_is_zero p then p_zero
    else
      let vxx := sqr (ax p) in
      let w := vxx + dbl vxx in
      let w := if a0 then w else w + a in
      let r := dbl (sqr (ay p)) in
      let sss := dbl (dbl (ay p * r)) in
      let rr := sqr r in
      let bb := sqr (ax p + r) - vxx - rr in
      let h := sqr w - dbl bb in
      mkP (dbl (h * ay p)) ((bb - h) * w - dbl rr) sss.

  (** ** XYZZ points: point_xyzz.h *)
  Definition x_zero : xyzz K := mkX 1 1 0 0.
  Definition x_is_zero (p : xyzz K) : bool := iszero (xzz p).
  (** point_xyzz.h:165-184 *)
  Definition x_eqb (p q : xyzz K) : bool :=
    if x_is_zero p then x_is_zero q
    else if x_is_zero q then false
    else if negb (feqb (xx p * xzz q) (xx q * xzz p)) then false else feqb (xy p * xzzz q) (xy q * xzzz p).
  Definition x_neg (p : xyzz K) : xyzz K := mkX (xx p) (- xy p) (xzz p) (xzzz p).
  (** affine_point.h:143-146 ToXYZZ *)
  Definition a_to_x (p : affine K) : xyzz K := if a_is_zero p then x_zero else mkX (ax p) (ay p) 1 1.
  Definition set_xx (p : xyzz K) v := mkX v (xy p) (xzz p) (xzzz p).
  Definition set_xy (p : xyzz K) v := mkX (xx p) v (xzz p) (xzzz p).
  Definition set_xzz (p : xyzz K) v := mkX (xx p) (xy p) v (xzzz p).
  Definition set_xzzz (p : xyzz K) v := mkX (xx p) (xy p) (xzz p) v.

  (** point_xyzz_impl.h:199-236 DoDoubleImpl *)
  Definition x_do_double (alias : bool) (p c : xyzz K) : xyzz K :=
    let rd c := same alias p c in
    let u := dbl (xy (rd c)) in
    let v := sqr u in
    let w := u * v in
    let s := xx (rd c) * v in
    let m := sqr (xx (rd c)) in
    let m := m + dbl m in
    let m := if a0 then m else m + a * sqr (xzz (rd c)) in
    let c := set_xx c (sqr m) in
    let c := set_xx c (xx c - dbl s) in
    let c := set_xy c (sum_of_products_serial [m; - w] [s - xx c; xy (rd c)]) in
    let c := set_xzz c (v * xzz (rd c)) in
    set_xzzz c (w * xzzz (rd c)).
  (** :176-196 *)
  Definition x_double (p : xyzz K) : xyzz K := if x_is_zero p then x_zero else x_do_double false p x_zero.
  Definition x_double_in_place (p : xyzz K) : xyzz K := if x_is_zero p then p else x_do_double true p p.
  (** :44-97 DoAdd *)
  Definition x_do_add (alias : bool) (p q c : xyzz K) : xyzz K :=
    let rd c := same alias p c in
    let u1 := xx (rd c) * xzz q in
    let s1 := xy (rd c) * xzzz q in
    let pp := xx q * xzz (rd c) - u1 in
    let r := xy q * xzzz (rd c) - s1 in
    if iszero pp && iszero r then (if alias then x_double_in_place c else x_double p)
    else
      let pp2 := sqr pp in
      let ppp := pp * pp2 in
      let q' := u1 * pp2 in
      let c := set_xx c (sqr r) in
      let c := set_xx c (xx c - ppp) in
      let c := set_xx c (xx c - dbl q') in
      let c := set_xy c (sum_of_products_serial [r; - s1] [q' - xx c; ppp]) in
      let c := set_xzz c (xzz (rd c) * xzz q) in
      let c := set_xzz c (xzz c * pp2) in
      let c := set_xzzz c (xzzz (rd c) * xzzz q) in
      set_xzzz c (xzzz c * ppp).
  (** :15-41 *)
  Definition x_add (p q : xyzz K) : xyzz K :=
    if x_is_zero p then q else if x_is_zero q then p else x_do_add false p q x_zero.
  Definition x_add_in_place (p q : xyzz K) : xyzz K :=
    if x_is_zero p then q else if x_is_zero q then p else x_do_add true p q p.
  (** :127-173 DoAdd with an affine point *)
  Definition x_do_madd (alias : bool) (p : xyzz K) (q : affine K) (c : xyzz K) : xyzz K :=
    let rd c := same alias p c in
    let pp := ax q * xzz (rd c) - xx (rd c) in
    let r := ay q * xzzz (rd c) - xy (rd c) in
    if iszero pp && iszero r then (if alias then x_double_in_place c else x_double p)
    else
      let pp2 := sqr pp in
      let ppp := pp * pp2 in
      let q' := xx (rd c) * pp2 in
      let c := set_xx c (sqr r) in
      let c := set_xx c (xx c - ppp) in
      let c := set_xx c (xx c - dbl q') in
      let c := set_xy c (sum_of_products_serial [r; - xy (rd c)] [q' - xx c; ppp]) in
      let c := set_xzz c (xzz (rd c) * pp2) in
      set_xzzz c (xzzz (rd c) * ppp).
  (** :99-125 *)
  Definition x_madd (p : xyzz K) (q : affine K) : xyzz K :=
    if x_is_zero p then a_to_x q else if a_is_zero q then p else x_do_madd false p q x_zero.
  Definition x_madd_in_place (p : xyzz K) (q : affine K) : xyzz K :=
    if x_is_zero p then a_to_x q else if a_is_zero q then p else x_do_madd true p q p.
  (** affine_point_impl.h:67-112 DoubleXYZZ *)
  Definition a_double_x (p : affine K) : xyzz K :=
    if a_is_zero p then x_zero
    else
      let u := dbl (ay p) in
      let v := sqr u in
      let w := u * v in
      let s := ax p * v in
      let m := sqr (ax p) in
      let m := m + dbl m in
      let m := if a0 then m else m + a in
      let x := sqr m - dbl s in
      mkX x (sum_of_products_serial [m; - w] [s - x; ay p]) v w.

  (** ** Conversions *)
  (** jacobian_point.h:191-218 *)
  Definition j_to_a (p : jacobian K) : affine K :=
    if j_is_zero p then a_zero
    else if isone (jz p) then mkA (jx p) (jy p)
    else let z_inv := finv (jz p) in
         let z_inv_square := sqr z_inv in
         mkA (jx p * z_inv_square) (jy p * z_inv_square * z_inv).
  Definition j_to_p (p : jacobian K) : projective K := let zz := sqr (jz p) in mkP (jx p * jz p) (jy p) (zz * jz p).
  Definition j_to_x (p : jacobian K) : xyzz K := let zz := sqr (jz p) in mkX (jx p) (jy p) zz (zz * jz p).
  (** projective_point.h:196-222 *)
  Definition p_to_a (p : projective K) : affine K :=
    if p_is_zero p then a_zero
    else if isone (pz p) then mkA (px p) (py p)
    else let z_inv := finv (pz p) in mkA (px p * z_inv) (py p * z_inv).
  Definition p_to_j (p : projective K) : jacobian K := let zz := sqr (pz p) in mkJ (px p * pz p) (py p * zz) (pz p).
  Definition p_to_x (p : projective K) : xyzz K := let zz := sqr (pz p) in mkX (px p * pz p) (py p * zz) zz (pz p * zz).
  (** point_xyzz.h:194-234 *)
  Definition x_to_a (p : xyzz K) : affine K :=
    if x_is_zero p then a_zero
    else if isone (xzz p) then mkA (xx p) (xy p)
    else let z_inv_cubic := finv (xzzz p) in
         let z_inv_square := sqr (z_inv_cubic * xzz p) in
         mkA (xx p * z_inv_square) (xy p * z_inv_cubic).
  Definition x_to_p (p : xyzz K) : projective K :=
    if x_is_zero p then p_zero
    else if isone (xzz p) then mkP (xx p) (xy p) 1
    else mkP (xx p * xzzz p) (xy p * xzz p) (xzz p * xzzz p).
  Definition x_to_j (p : xyzz K) : jacobian K :=
    if x_is_zero p then j_zero
    else if isone (xzz p) then mkJ (xx p) (xy p) 1
    else let z := xzz p * xzzz p in mkJ (xx p * xzzz p * z) (xy p * xzz p * sqr z) z.

  (** ** Batch normalisation. jacobian_point.h:128-156, projective_point.h:133-161, point_xyzz.h:132-159 BatchNormalizeSerial;
      [None] is the answer false; the inverses come from BatchInverseInPlaceSerial (C19). *)
  Definition inverses (l : list K) : option (list K) :=
    do_batch_inverse 0 1 fmul (fun x : K => if feqb x 0 then None else Some (finv x)) (fun x => feqb x 0) (fun x => feqb x 1) true l l 1.
  Definition j_normalize1 (p : jacobian K) (z_inv : K) : affine K :=
    if iszero z_inv then a_zero
    else if isone z_inv then mkA (jx p) (jy p)
    else let z_inv_square := sqr z_inv in mkA (jx p * z_inv_square) (jy p * z_inv_square * z_inv).
  Definition p_normalize1 (p : projective K) (z_inv : K) : affine K :=
    if iszero z_inv then a_zero
    else if isone z_inv then mkA (px p) (py p)
    else mkA (px p * z_inv) (py p * z_inv).
  Definition x_normalize1 (p : xyzz K) (z_inv_cubic : K) : affine K :=
    if iszero (xzz p) then a_zero
    else if isone (xzz p) then mkA (xx p) (xy p)
    else let z_inv_square := sqr (z_inv_cubic * xzz p) in mkA (xx p * z_inv_square) (xy p * z_inv_cubic).
  Definition normalize_serial {P} (z : P -> K) (one : P -> K -> affine K) (points : list P) (out : nat) : option (list (affine K)) :=
    if negb (Nat.eqb (length points) out) then None
    else match inverses (map z points) with
         | None => None
         | Some zi => Some (map (fun pz => one (fst pz) (snd pz)) (combine points zi))
         end.
  (** jacobian_point.h:97-126 (and the two others) BatchNormalize on [openmp] threads: when the size reaches
      2^(threads / kParallelBatchInverseDivisorThreshold) (it is 2), Parallelize normalises each chunk by itself. [None]: false, the CHECK
      of a chunk aborts, or the shift is undefined because it is by 64 or more. *)
  Definition normalize {P} (openmp : option Z) (z : P -> K) (one : P -> K -> affine K) (points : list P) (out : nat) : option (list (affine K)) :=
    if negb (Nat.eqb (length points) out) then None
    else match openmp with
         | Some threads =>
             let size := Z.of_nat (length points) in
             if (64 <=? threads / 2)%Z then None
             else if (2 ^ (threads / 2) <=? size)%Z
             then all_chunks (map (fun call => match call with (_, start, len) =>
                                     normalize_serial z one (slice points (Z.to_nat start) (Z.to_nat len)) (Z.to_nat len) end)
                                  (chunk_calls size (num_elements_per_thread threads size None)))
             else normalize_serial z one points out
         | None => normalize_serial z one points out
         end.

  (** sw_curve.h:86-127 IsOnCurve *)
  Definition a_on_curve (p : affine K) : bool :=
    if a_is_zero p then false
    else let right := sqr (ax p) * ax p + b in
         let right := if a0 then right else right + a * ax p in
         feqb (sqr (ay p)) right.
  Definition p_on_curve (p : projective K) : bool :=
    if iszero (pz p) then false
    else let z2 := sqr (pz p) in
         let z3 := z2 * pz p in
         let right := sqr (px p) * px p + b * z3 in
         let right := if a0 then right else right + a * px p * z2 in
         feqb (sqr (py p) * pz p) right.
  Definition j_on_curve (p : jacobian K) : bool :=
    if iszero (jz p) then false
    else let z3 := sqr (jz p) * jz p in
         let right := sqr (jx p) * jx p + b * sqr z3 in
         let right := if a0 then right else right + a * jx p * z3 * jz p in
         feqb (sqr (jy p)) right.
  Definition x_on_curve (p : xyzz K) : bool :=
    if iszero (xzzz p) then false
    else let right := sqr (xx p) * xx p + b * sqr (xzzz p) in
         let right := if a0 then right else right + a * xx p * sqr (xzz p) in
         feqb (sqr (xy p)) right.
End EC.
