(** What a subdivision into quads is. *)
From Coq Require Import Reals.
From Verif Require Import Base MeshModel MeshSpec GeoModel.
Open Scope Z_scope.

(** no e.halfedge() starts at a vertex with a single edge *)
Definition noDangling (m : mesh) : Prop := forall e, liveH m (eHe e) -> nx m (tw (eHe e)) <> eHe e.
(** Each face with d corners becomes d quads. There is one quad for each interior halfedge h of m. corner h is the side of that quad that leaves the old vertex at the tail of h;
    its corners are that vertex, the middle of the edge of h, the centre of the face, and the middle of the edge before h. vt, md and ce are the vertices of m' for the vertices, edges and faces of m *)
Record Refined (m m' : mesh) (vt md ce corner : Z -> Z) : Prop := {
  (* the vertices of m': one for each vertex, edge and face of m *)
  rf_vert : forall v, liveV m' v <-> (exists u, liveV m u /\ v = vt u) \/ (exists e, liveH m (eHe e) /\ v = md e) \/ (exists f, liveF m f /\ v = ce f);
  rf_vt : forall u w, liveV m u -> liveV m w -> vt u = vt w -> u = w;
  rf_md : forall e k, liveH m (eHe e) -> liveH m (eHe k) -> md e = md k -> e = k;
  rf_ce : forall f k, liveF m f -> liveF m k -> ce f = ce k -> f = k;
  rf_kind : forall u e f, liveV m u -> liveH m (eHe e) -> liveF m f -> vt u <> md e /\ vt u <> ce f /\ md e <> ce f;
  (* the quads *)
  rf_quad : forall h, liveH m h -> ~ ext m h -> let k := corner h in
    liveH m' k /\ ~ ext m' k /\ nx m' (nx m' (nx m' (nx m' k))) = k /\
    ve m' k = vt (ve m h) /\ ve m' (nx m' k) = md (edge h) /\ ve m' (nx m' (nx m' k)) = ce (fa m h) /\ (forall p, liveH m p -> nx m p = h -> ve m' (nx m' (nx m' (nx m' k))) = md (edge p));
  (* there are no other faces, and the quads are distinct *)
  rf_all : forall x, liveH m' x -> ~ ext m' x -> exists h, liveH m h /\ ~ ext m h /\ (x = corner h \/ x = nx m' (corner h) \/ x = nx m' (nx m' (corner h)) \/ x = nx m' (nx m' (nx m' (corner h))));
  rf_inj : forall h k, liveH m h -> liveH m k -> ~ ext m h -> ~ ext m k -> (corner h = corner k -> h = k) /\ corner h <> nx m' (corner k) /\ corner h <> nx m' (nx m' (corner k)) /\ corner h <> nx m' (nx m' (nx m' (corner k)));
  (* neighbouring quads of a face share a side; quads in neighbouring faces share half of the edge between them; the boundary stays *)
  rf_spoke : forall h, liveH m h -> ~ ext m h -> tw (nx m' (corner h)) = nx m' (nx m' (corner (nx m h)));
  rf_half : forall h, liveH m h -> ~ ext m h -> ~ ext m (tw h) -> tw (corner h) = nx m' (nx m' (nx m' (corner (nx m (tw h)))));
  rf_bd : forall h, liveH m h -> ~ ext m h -> ext m (tw h) -> ext m' (tw (corner h)) }.

(** x is the mean of the points p a for a in l *)
Definition isMean {A} (p : A -> V3) (l : list A) (x : V3) : Prop :=
  forall q, q = qx \/ q = qy \/ q = qz -> (q x * INR (length l) = fold_right (fun a s => q (p a) + s) 0 l)%R.
(** l lists the sides of face f *)
Definition sidesAre (m : mesh) (f : Z) (l : list Z) : Prop := NoDup l /\ forall h, In h l <-> liveH m h /\ fa m h = f.
(** l lists the halfedges leaving v *)
Definition leavingAre (m : mesh) (v : Z) (l : list Z) : Prop := NoDup l /\ forall h, In h l <-> liveH m h /\ ve m h = v.
