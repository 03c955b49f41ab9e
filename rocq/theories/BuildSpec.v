(** What a list of polygons is, read as a surface: used to state what ManifoldSurfaceMesh(polygons) accepts and builds.
    Nothing here depends on the model of the constructor. *)
From Coq Require Export Relations.
From Verif Require Import Base.
Open Scope Z_scope.

(** the directed edge a -> b leaves corner i of polygon j *)
Definition arcAt (polys : list (list Z)) (j i : nat) (a b : Z) : Prop :=
  exists p, nth_error polys j = Some p /\ nth_error p i = Some a /\ nth_error p (Nat.modulo (S i) (length p)) = Some b.
Definition arc polys a b := exists j i, arcAt polys j i a b.
(** some polygon runs a, v, b consecutively (cyclically) *)
Definition corner (polys : list (list Z)) (a v b : Z) : Prop :=
  exists j i p, nth_error polys j = Some p /\ nth_error p i = Some a /\
    nth_error p (Nat.modulo (i + 1) (length p)) = Some v /\ nth_error p (Nat.modulo (i + 2) (length p)) = Some b.
Definition uses (polys : list (list Z)) v := exists p, In p polys /\ In v p.
Definition neighbour polys v x := arc polys v x \/ arc polys x v.

(** consistently oriented polygons whose union is a 2-manifold with boundary: every directed edge once, and around each
    vertex the polygons form a single fan (its link is connected) *)
Record OrientedManifold (polys : list (list Z)) : Prop := {
  om_some : polys <> [];
  om_degree : forall p, In p polys -> (3 <= length p)%nat;
  om_self : forall a, ~ arc polys a a;
  om_once : forall j i j' i' a b, arcAt polys j i a b -> arcAt polys j' i' a b -> j = j' /\ i = i';
  om_used : forall v w, uses polys w -> 0 <= v < w -> uses polys v;
  om_link : forall v x y, neighbour polys v x -> neighbour polys v y ->
            clos_refl_sym_trans Z (fun a b => corner polys a v b) x y }.

(** indices are unsigned *)
Definition indices (polys : list (list Z)) := forall v, uses polys v -> 0 <= v.
