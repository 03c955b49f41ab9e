(** What nearest neighbour queries should return. *)
From Coq Require Import Reals Sorted.
From Verif Require Import Base GeoModel.
Open Scope R_scope.

(** distance of the point with index i from q *)
Definition distTo (pts : list V3) (q : V3) (i : nat) : R := norm3d (sub3 (nth i pts (mk3 0 0 0)) q).
(** l lists distinct points among the candidates, nearest first, and no candidate left out is nearer than one listed *)
Record Nearest (pts : list V3) (q : V3) (cand : nat -> Prop) (l : list nat) : Prop := {
  ne_nodup : NoDup l;
  ne_cand : forall i, In i l -> (i < length pts)%nat /\ cand i;
  ne_order : StronglySorted (fun i j => distTo pts q i <= distTo pts q j) l;
  ne_best : forall i j, In i l -> (j < length pts)%nat -> cand j -> ~ In j l -> distTo pts q i <= distTo pts q j }.
(** the contract of the kd-tree: the k nearest points, in order; ties in any order *)
Definition ExactSearch (tree : V3 -> nat -> list nat) (pts : list V3) : Prop :=
  forall q k, (0 < k <= length pts)%nat -> length (tree q k) = k /\ Nearest pts q (fun _ => True) (tree q k).
(** the points whose squared distance is less than the squared radius, once each *)
Definition ExactBall (ball : V3 -> R -> list (nat * R)) (pts : list V3) : Prop :=
  forall q r, NoDup (map fst (ball q r)) /\ forall i, In i (map fst (ball q r)) <-> (i < length pts)%nat /\ norm2_3 (sub3 (nth i pts (mk3 0 0 0)) q) < r.
