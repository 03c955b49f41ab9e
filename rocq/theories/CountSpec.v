(** What the whole-mesh queries should return. *)
From Coq Require Export Relations.
From Verif Require Import Base MeshModel MeshSpec MeshOpSpec.
Open Scope Z_scope.

(** linked by a path of edges *)
Definition linked (m : mesh) : Z -> Z -> Prop := clos_refl_sym_trans Z (joined m).
(** n is the number of connected components: n vertices, one in each *)
Definition components (m : mesh) (n : nat) : Prop :=
  exists reps, length reps = n /\ NoDup reps /\ (forall r, In r reps -> liveV m r) /\
    (forall v, liveV m v -> exists r, In r reps /\ linked m v r) /\
    (forall r r', In r reps -> In r' reps -> linked m r r' -> r = r').
(** touches a boundary loop *)
Definition onBoundary (m : mesh) (v : Z) : Prop := exists h, liveH m h /\ ve m h = v /\ ext m h.
(** the number of vertices in use that come before v *)
Definition rankV (m : mesh) (v : Z) : Z := countb (liveVb m) v.
