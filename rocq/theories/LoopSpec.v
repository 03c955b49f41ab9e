(** What a subdivision of triangles into four is. *)
From Coq Require Import Reals.
From Verif Require Import Base MeshModel MeshSpec GeoModel IntrinsicSpec.
Open Scope Z_scope.

(** no interior vertex has degree two: going around a vertex twice from h does not return to h *)
Definition noDegreeTwo (m : mesh) : Prop := forall h, liveH m h -> ~ ext m h -> ~ ext m (tw h) -> nx m (tw (nx m (tw h))) <> h.
(** Each triangle becomes four. corner h is the halfedge of m' that leaves the old vertex at the tail of h along the edge of h; its triangle is the one in that corner of the
    old face. vt and md are the vertices of m' for the vertices and edges of m *)
Record FourWay (m m' : mesh) (vt md corner : Z -> Z) : Prop := {
  fw_vert : forall v, liveV m' v <-> (exists u, liveV m u /\ v = vt u) \/ (exists e, liveH m (eHe e) /\ v = md e);
  fw_vt : forall u w, liveV m u -> liveV m w -> vt u = vt w -> u = w;
  fw_md : forall e k, liveH m (eHe e) -> liveH m (eHe k) -> md e = md k -> e = k;
  fw_kind : forall u e, liveV m u -> liveH m (eHe e) -> vt u <> md e;
  (* the triangle at each corner: the old vertex, the middle of the edge of h, the middle of the edge before h *)
  fw_corner : forall h, liveH m h -> ~ ext m h -> let k := corner h in
    liveH m' k /\ ~ ext m' k /\ nx m' (nx m' (nx m' k)) = k /\ ve m' k = vt (ve m h) /\ ve m' (nx m' k) = md (edge h) /\ (forall p, liveH m p -> nx m p = h -> ve m' (nx m' (nx m' k)) = md (edge p));
  (* the triangle in the middle shares its sides with those at the corners *)
  fw_middle : forall h, liveH m h -> ~ ext m h -> ~ ext m' (tw (nx m' (corner h))) /\ nx m' (tw (nx m' (corner h))) = tw (nx m' (corner (nx m h)));
  (* there are no other faces, and the corners are distinct *)
  fw_all : forall x, liveH m' x -> ~ ext m' x -> exists h, liveH m h /\ ~ ext m h /\ (x = corner h \/ x = nx m' (corner h) \/ x = nx m' (nx m' (corner h)) \/ x = tw (nx m' (corner h)));
  fw_inj : forall h k, liveH m h -> liveH m k -> ~ ext m h -> ~ ext m k -> corner h = corner k -> h = k;
  (* faces that share an edge share its halves; the boundary stays *)
  fw_half : forall h, liveH m h -> ~ ext m h -> ~ ext m (tw h) -> tw (corner h) = nx m' (nx m' (corner (nx m (tw h))));
  fw_bd : forall h, liveH m h -> ~ ext m h -> ext m (tw h) -> ext m' (tw (corner h)) }.

(** the vertices and the halves of the edges alone: m' has one vertex for each vertex and each edge of m, and each vertex of an edge is joined to the vertices its ends became *)
Record Halved (m m' : mesh) (vt md : Z -> Z) : Prop := {
  hv_vert : forall v, liveV m' v <-> (exists u, liveV m u /\ v = vt u) \/ (exists e, liveH m (eHe e) /\ v = md e);
  hv_vt : forall u w, liveV m u -> liveV m w -> vt u = vt w -> u = w;
  hv_md : forall e k, liveH m (eHe e) -> liveH m (eHe k) -> md e = md k -> e = k;
  hv_kind : forall u e, liveV m u -> liveH m (eHe e) -> vt u <> md e;
  hv_half : forall h, liveH m h -> exists k, liveH m' k /\ ve m' k = vt (ve m h) /\ ve m' (tw k) = md (edge h);
  (* no edge joins two old vertices *)
  hv_apart : forall x u w, liveH m' x -> liveV m u -> liveV m w -> ve m' x = vt u -> ve m' (tw x) <> vt w }.

(** Loop's weights for an interior vertex of degree n *)
Definition loopWeight (n : nat) : R := if Nat.eqb n 3 then (3 / 16)%R else (3 / (8 * INR n))%R.
(** x is where the rule for interior vertices puts a vertex at p whose neighbours are the heads of the halfedges in l *)
Definition loopVertex (m : mesh) (pos : Z -> V3) (p : V3) (l : list Z) (x : V3) : Prop := forall q, q = qx \/ q = qy \/ q = qz ->
  let u := loopWeight (length l) in (q x = (1 - INR (length l) * u) * q p + u * Rsum (fun h => q (pos (ve m (tw h)))) l)%R.
(** ... and the vertex of an edge between two triangles: 3/8 of its ends, 1/8 of the opposite corners *)
Definition loopEdge (m : mesh) (pos : Z -> V3) (a : Z) (x : V3) : Prop := forall q, q = qx \/ q = qy \/ q = qz ->
  (q x = 3 / 8 * (q (pos (ve m a)) + q (pos (ve m (tw a)))) + 1 / 8 * (q (pos (ve m (nx m (nx m a)))) + q (pos (ve m (nx m (nx m (tw a)))))))%R.
