(** Quaternions as four numbers. *)
From Coq Require Import Reals.
From Verif Require Import Base GeoModel QuatModel.
Open Scope R_scope.
(** the four components *)
Definition comps (q : quat) : R * R * R * R := (qs q, qx (qv q), qy (qv q), qz (qv q)).
(** inner product, length *)
Definition inner (p q : quat) : R := qs p * qs q + qx (qv p) * qx (qv q) + qy (qv p) * qy (qv q) + qz (qv p) * qz (qv q).
Definition len4 (q : quat) : R := sqrt (inner q q).
Definition q1 : quat := qOf 1 0 0 0.
Definition qi : quat := qOf 0 1 0 0.
Definition qj : quat := qOf 0 0 1 0.
Definition qk : quat := qOf 0 0 0 1.
Definition nonzero (q : quat) : Prop := q <> qOf 0 0 0 0.
(** neither is a multiple of the other *)
Definition independent (p q : quat) : Prop := forall a b, qAdd (qScale p a) (qScale q b) = qOf 0 0 0 0 -> a = 0 /\ b = 0.
Definition dotRow (A : nat -> nat -> R) (i : nat) (B : nat -> nat -> R) (j : nat) : R := A i 0%nat * B 0%nat j + A i 1%nat * B 1%nat j + A i 2%nat * B 2%nat j + A i 3%nat * B 3%nat j.
