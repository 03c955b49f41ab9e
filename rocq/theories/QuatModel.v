(** Quaternions, src/utilities/quaternion.cpp (q below). double is R: rounding is not modelled. *)
From Coq Require Import Reals.
From Verif Require Import Base GeoModel.
Open Scope R_scope.
(** class Quaternion, include/geometrycentral/utilities/quaternion.h:37; the constructors q:12-36 fill in zeros *)
Record quat := mkQ { qs : R; qv : V3 }.
Definition zero3 := mk3 0 0 0.
Definition qOf (a b c d : R) := mkQ a (mk3 b c d).
Definition qReal (a : R) := mkQ a zero3.
Definition qImag (v : V3) := mkQ 0 v.
Definition neg3 (v : V3) := mk3 (- qx v) (- qy v) (- qz v).
(** toMatrix, q:73-93 *)
Definition qMatrix (q : quat) (i j : nat) : R :=
  let s := qs q in let x := qx (qv q) in let y := qy (qv q) in let z := qz (qv q) in
  nth j (nth i [[s; - x; - y; - z]; [x; s; - z; y]; [y; z; s; - x]; [z; - y; x; s]] []) 0.
(** q:121-152; the assigning forms q:154-189 compute the same *)
Definition qAdd (p q : quat) := mkQ (qs p + qs q) (add3 (qv p) (qv q)).
Definition qSub (p q : quat) := mkQ (qs p - qs q) (sub3 (qv p) (qv q)).
Definition qNeg (q : quat) := mkQ (- qs q) (neg3 (qv q)).
Definition qScale (q : quat) (c : R) := mkQ (qs q * c) (mul3 (qv q) c).
Definition qDiv (q : quat) (c : R) := mkQ (qs q / c) (div3 (qv q) c).
(** Hamilton product, q:193-203 *)
Definition qMul (p q : quat) := mkQ (qs p * qs q - dot3 (qv p) (qv q)) (add3 (add3 (mul3 (qv q) (qs p)) (mul3 (qv p) (qs q))) (cross3 (qv p) (qv q))).
(** q:211-238; divisions by zero are not modelled: the theorems assume a quaternion that is not zero *)
Definition qBar (q : quat) := mkQ (qs q) (neg3 (qv q)).
Definition qNorm2 (q : quat) := qs q * qs q + dot3 (qv q) (qv q).
Definition qNorm (q : quat) := sqrt (qs q * qs q + qx (qv q) * qx (qv q) + qy (qv q) * qy (qv q) + qz (qv q) * qz (qv q)).
Definition qInv (q : quat) := qDiv (qBar q) (qNorm2 q).
Definition qUnit (q : quat) := qDiv q (qNorm q).
(** slerp, q:249-265. None: a division by zero, where the code returns NaN (or infinite) components *)
Definition slerp (q0 q1 : quat) (t : R) : option quat :=
  let m0 := qNorm q0 in let m1 := qNorm q1 in let m := (1 - t) * m0 + t * m1 in
  if Req_EM_T m0 0 then None else if Req_EM_T m1 0 then None else
  let p0 := qDiv q0 m0 in let p1 := qDiv q1 m1 in let theta := acos (qs (qMul (qBar p0) p1)) in
  if Req_EM_T (sin theta) 0 then None else
  Some (qScale (qDiv (qAdd (qScale p0 (sin ((1 - t) * theta))) (qScale p1 (sin (t * theta)))) (sin theta)) m).
