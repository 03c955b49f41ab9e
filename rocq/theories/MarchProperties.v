(** C45, C70: isolines *)
From Verif Require Import Base MeshModel MeshSpec MeshOpSpec MeshBase MeshCheck MeshBuildModel MeshExamples PointModel PointSpec PointProofs PointProperties GeoModel GeoSpec
  BaryModel BarySpec BaryProofs BaryProperties MarchModel MarchSpec MarchProofs IsoProofs CurveProofs.
From Coq Require Import Reals Lra Permutation.
Open Scope Z_scope.

(** C45. However the nodes are compared, as long as the comparison tells different positions of the node list apart:
    every segment is used exactly once, consecutive segments of a component share a node, and a component is only closed
    off when none of the segments still to be placed continues it at either end. *)
Theorem C45_components {N} (eqb : N -> N -> bool) (nodes : list N) (edges : list (nat * nat)) :
  (forall i j a b, nth_error nodes i = Some a -> nth_error nodes j = Some b -> (eqb a b = true <-> i = j)) ->
  Forall (fun s => fst s < length nodes /\ snd s < length nodes)%nat edges ->
  exists cs, getCurveComponents eqb nodes edges = Ok cs /\ Permutation (concat cs) edges /\
    Forall (fun c => c <> [] /\ linked (fun s t => snd s = fst t) c) cs /\
    forall l1 c l2, cs = l1 ++ c :: l2 -> forall s, In s (concat l2) -> (forall z, final c = Some z -> fst s <> snd z) /\ (forall a, first c = Some a -> snd s <> fst a).
Proof. intros D F. exact (getCurveComponents_ok eqb nodes D edges F). Qed.
Print Assumptions C45_components.
(** When no node is the start of two segments or the end of two, the components are maximal: only a closed component can
    be continued by any segment. *)
Theorem C45_maximal {N} (eqb : N -> N -> bool) (nodes : list N) (edges : list (nat * nat)) :
  (forall i j a b, nth_error nodes i = Some a -> nth_error nodes j = Some b -> (eqb a b = true <-> i = j)) ->
  Forall (fun s => fst s < length nodes /\ snd s < length nodes)%nat edges -> NoDup (map fst edges) -> NoDup (map snd edges) ->
  exists cs, getCurveComponents eqb nodes edges = Ok cs /\ Permutation (concat cs) edges /\
    forall c a z, In c cs -> first c = Some a -> final c = Some z ->
      (forall s, In s edges -> fst s = snd z -> s = a) /\ (forall s, In s edges -> snd s = fst a -> s = z).
Proof.
  intros D F N1 N2. destruct (getCurveComponents_ok eqb nodes D edges F) as (cs & E & P & L & M). exists cs. split; [exact E|]. split; [exact P|].
  intros c a z Hc Ha Hz. split; intros s Hs X.
  - pose proof (maximal_front edges cs N2 P L M c z s Hc Hz Hs X) as Y. unfold seg in *. rewrite Ha in Y. injection Y as Y. auto.
  - pose proof (maximal_back edges cs N1 P L M c a s Hc Ha Hs X) as Y. unfold seg in *. rewrite Hz in Y. injection Y as Y. auto.
Qed.
Print Assumptions C45_maximal.
Example C45_witness : getCurveComponents Nat.eqb [10;11;12;13;14;15]%nat [(1,2);(4,5);(0,1);(5,4);(2,3)]%nat = Ok [[(0,1);(1,2);(2,3)];[(5,4);(4,5)]]%nat /\
  (forall i j a b, nth_error [10;11;12;13;14;15]%nat i = Some a -> nth_error [10;11;12;13;14;15]%nat j = Some b -> (Nat.eqb a b = true <-> i = j)).
Proof.
  split; [reflexivity|]. intros i j a b A B. rewrite Nat.eqb_eq. split; [|congruence].
  intros <-. assert (ND : NoDup [10;11;12;13;14;15]%nat) by (repeat constructor; cbn; lia).
  apply (proj1 (NoDup_nth_error _) ND); [apply nth_error_Some|]; congruence.
Qed.

(** C70. On a triangle mesh where no face has an edge twice and no two faces have two common edges, with edge lengths
    that are those of a triangle in every face, and a level that is not the value of a vertex: [marchingTriangles]
    returns curves whose steps are exactly one segment for every face with corners on both sides of the level. A
    segment joins the two points of the sides of the face at which the interpolated value is the level; it starts on the
    side where the value rises in counter-clockwise direction. *)
Theorem C70_segments m len u iso : Valid m -> triangular m -> edgeSimple m -> (forall v, liveV m v -> u v <> iso) ->
  (forall f, liveF m f -> exists P, lengths2 m len P f /\ ccw m P f) ->
  exists curves faces segs, marchingTriangles m len u iso = Ok curves /\
    NoDup faces /\ (forall f, In f faces <-> liveF m f /\ crossed m u iso f) /\
    Forall2 (fun f pq => isoSegment m u iso f (fst pq) (snd pq)) faces segs /\ Permutation (flat_map pairs curves) segs.
Proof.
  intros V T ES NV LAY. destruct (march_ok m V T len u iso NV ES LAY) as (curves & cf & segs & E & A & B & C & D & _). exists curves, cf, segs. auto.
Qed.
Print Assumptions C70_segments.
(** Every curve is closed, or starts and ends on the boundary; no point is left twice or reached twice. *)
Theorem C70_maximal m len u iso : Valid m -> triangular m -> edgeSimple m -> (forall v, liveV m v -> u v <> iso) ->
  (forall f, liveF m f -> exists P, lengths2 m len P f /\ ccw m P f) ->
  exists curves, marchingTriangles m len u iso = Ok curves /\
    (forall c, In c curves -> exists a z, first c = Some a /\ final c = Some z /\ (a = z \/ onBoundaryEdge m a /\ onBoundaryEdge m z)) /\
    NoDup (map fst (flat_map pairs curves)) /\ NoDup (map snd (flat_map pairs curves)).
Proof.
  intros V T ES NV LAY. destruct (march_ok m V T len u iso NV ES LAY) as (curves & cf & segs & E & A & B & C & D & N1 & N2 & F). exists curves. split; [exact E|]. split; [exact F|].
  split; [apply (Permutation_NoDup (Permutation_map fst (Permutation_sym D)) N1)|apply (Permutation_NoDup (Permutation_map snd (Permutation_sym D)) N2)].
Qed.
Print Assumptions C70_maximal.
(** In every layout of a face, walking along a curve the corners below the level are on the left, those above on the right. *)
Theorem C70_sides m len u iso : Valid m -> triangular m -> edgeSimple m -> (forall v, liveV m v -> u v <> iso) ->
  (forall f, liveF m f -> exists P, lengths2 m len P f /\ ccw m P f) ->
  exists curves, marchingTriangles m len u iso = Ok curves /\
    forall c p q, In c curves -> In (p, q) (pairs c) -> exists f, liveF m f /\ touches m (elemOf p) f /\ touches m (elemOf q) f /\ valueAt m u p = iso /\ valueAt m u q = iso /\
      forall P h, lengths2 m len P f -> ccw m P f -> liveH m h -> fa m h = f ->
        ((u (ve m h) < iso)%R -> (0 < area2 (place m P p) (place m P q) (P (ve m h)))%R) /\ ((iso < u (ve m h))%R -> (area2 (place m P p) (place m P q) (P (ve m h)) < 0)%R).
Proof.
  intros V T ES NV LAY. destruct (march_ok m V T len u iso NV ES LAY) as (curves & cf & segs & E & A & B & C & D & _). exists curves. split; [exact E|].
  intros c p q Hc Hpq. assert (X : In (p, q) segs) by (apply (Permutation_in _ D); apply in_flat_map; eauto). destruct (f2_in_r _ _ _ _ C X) as (f & Hf & IS). cbn [fst snd] in IS.
  destruct (proj1 (B f) Hf) as (F & _). exists f. split; [exact F|].
  assert (K := IS). destruct K as (h & k & Lh & Fh & _ & (t & Ep & _ & Vp) & Lk & Fk & _ & (s & Eq & _ & Vq)).
  split; [rewrite Ep; exists h; auto|]. split; [rewrite Eq; exists k; auto|]. split; [exact Vp|]. split; [exact Vq|].
  intros P g L2 CC Lg Fg. exact (segment_sides m V T len u iso NV f p q P F (conj L2 CC) IS g Lg Fg).
Qed.
Print Assumptions C70_sides.

(** two right triangles; the isoline cuts off vertex 0 *)
Lemma touches_quad e f : touches quad (EE e) f -> liveF quad f -> (f = 0 /\ (e = 0 \/ e = 1 \/ e = 2)) \/ (f = 1 /\ (e = 2 \/ e = 3 \/ e = 4)).
Proof.
  intros (h & (B & _) & <- & <-) (G & _). change (fFill quad) with 2 in G. change (heFill quad) with 10 in B.
  assert (C : h = 0 \/ h = 1 \/ h = 2 \/ h = 3 \/ h = 4 \/ h = 5 \/ h = 6 \/ h = 7 \/ h = 8 \/ h = 9) by lia.
  destruct C as [->|[->|[->|[->|[->|[->|[->|[->|[->| ->]]]]]]]]]; vm_compute; vm_compute in G; auto 10; destruct G; congruence.
Qed.
Lemma quad_simple : edgeSimple quad.
Proof.
  split.
  - intros h L F. destruct (touches_quad (edge h) (fa quad h)) as [(E & _)|(E & _)]; auto; [exists h; auto| |]; rewrite E; intros X.
    + destruct L as (B & _). change (heFill quad) with 10 in B. assert (C : h = 0 \/ h = 1 \/ h = 2 \/ h = 3 \/ h = 4 \/ h = 5 \/ h = 6 \/ h = 7 \/ h = 8 \/ h = 9) by lia.
      destruct C as [->|[->|[->|[->|[->|[->|[->|[->|[->| ->]]]]]]]]]; vm_compute in E, X; congruence.
    + destruct L as (B & _). change (heFill quad) with 10 in B. assert (C : h = 0 \/ h = 1 \/ h = 2 \/ h = 3 \/ h = 4 \/ h = 5 \/ h = 6 \/ h = 7 \/ h = 8 \/ h = 9) by lia.
      destruct C as [->|[->|[->|[->|[->|[->|[->|[->|[->| ->]]]]]]]]]; vm_compute in E, X; congruence.
  - intros e e' f g N F G A B C D. apply touches_quad in A, B, C, D; auto. lia.
Qed.
Definition heightU (v : Z) : R := IZR (if v =? 0 then 0 else if v =? 2 then 2 else 1).
Example C70_witness : Valid quad /\ triangular quad /\ edgeSimple quad /\ (forall v, liveV quad v -> heightU v <> (1/2)%R) /\
  (forall f, liveF quad f -> exists P, lengths2 quad rectLen P f /\ ccw quad P f) /\ liveF quad 0 /\ crossed quad heightU (1/2) 0 /\ crossed quad heightU (1/2) 1.
Proof.
  split; [exact quad_valid|]. split; [exact quad_tri|]. split; [exact quad_simple|]. split.
  { intros v _. unfold heightU. destruct (v =? 0); [lra|]. destruct (v =? 2); lra. }
  split; [intros f F; exists rect; split; [apply rect_lengths|apply rect_ccw; auto]|]. split; [conc|].
  split; split; [exists 0|exists 2|exists 5|exists 6]; (split; [conc|]); (split; [reflexivity|]); corners quad; unfold heightU; cbn [Z.eqb Pos.eqb]; lra.
Qed.

(** one step of the scan: what becomes of the gradient does not matter here *)
Lemma scan_step m (V : Valid m) (T : triangular m) len u iso f h hs hits gx gy gz : liveF m f -> liveH m h -> fa m h = f ->
  let u0 := u (ve m (2 * edge h)) in let u1 := u (ve m (tw (2 * edge h))) in ~ (u0 = u1 /\ u0 = iso) ->
  exists x y z, scanFace m len u iso f (h :: hs) hits (BFace f gx gy gz) =
    scanFace m len u iso f hs (if Reqb (Rmin u0 u1) (Rmax u0 u1) then hits else
      let t := ((iso - Rmin u0 u1) / (Rmax u0 u1 - Rmin u0 u1))%R in
      let t := if Rgt_dec u0 u1 then (1 - t)%R else t in
      if Rle_dec t 1 then if Rge_dec t 0 then hits ++ [PEdge (edge h) t] else hits else hits) (BFace f x y z) /\ (gx + gy + gz = 0 -> x + y + z = 0)%R.
Proof.
  intros F L Fh u0 u1 Q. assert (CN := va_cn m V). assert (Le : liveH m (2 * edge h)) by (apply (half_live m V); auto). cbn [scanFace]. change (eHe (edge h)) with (2 * edge h).
  rewrite (p_vert m V) by auto. cbn [bind]. rewrite (p_next m V) by auto. cbn [bind]. rewrite (p_vert m V) by (apply (cn_nx _ CN); auto). cbn [bind]. rewrite (cn_vnx _ CN _ Le).
  fold u0 u1. assert (K : Reqb (Rmin u0 u1) (Rmax u0 u1) && Reqb (Rmin u0 u1) iso = false).
  { destruct (Reqb_spec (Rmin u0 u1) (Rmax u0 u1)) as [E|]; auto. destruct (Reqb_spec (Rmin u0 u1) iso) as [E'|]; auto. exfalso. apply Q. revert E E'. unfold Rmin, Rmax. destruct (Rle_dec u0 u1); intros; split; lra. }
  rewrite K. rewrite (p_next m V) by auto. cbn [bind]. assert (L1 := cn_nx _ CN _ L). assert (F1 : fa m (nx m h) = f) by (rewrite (cn_fnx _ CN); auto).
  destruct (bvHalfedge_ok m V (nx m h) f T L1 F) as (b & -> & Eb & Zb & Cb); [exists (nx m h); auto|]. destruct b as [|? ? ?|g bx by' bz]; try discriminate. cbn [elemOfV] in Eb. injection Eb as ->. cbn [zeroSum] in Zb.
  cbn [bind bvRotate90]. destruct (faceRotate90_ok m V len f bx by' bz T F Zb) as (x' & y' & z' & -> & Z' & _). cbn [bind].
  rewrite (p_vert m V) by auto. cbn [bind bvScale]. unfold bvAdd, bvCombine. cbn [elemOfV bvSharedEdge bvSharedFace bind bvInFace]. rewrite ?Z.eqb_refl. cbn [bind bvInFace]. rewrite ?Z.eqb_refl. cbn [bind].
  do 3 eexists. split; [reflexivity|]. intros G. nra.
Qed.
Lemma hit_in u0 u1 iso e hits : (u0 <> u1 -> Rmin u0 u1 <= iso <= Rmax u0 u1)%R ->
  (u0 <> u1 -> exists t, (if Reqb (Rmin u0 u1) (Rmax u0 u1) then hits else
      let t := (iso - Rmin u0 u1) / (Rmax u0 u1 - Rmin u0 u1) in
      let t := if Rgt_dec u0 u1 then 1 - t else t in
      if Rle_dec t 1 then if Rge_dec t 0 then hits ++ [PEdge e t] else hits else hits) = hits ++ [PEdge e t])%R.
Proof.
  intros B N. specialize (B N). cbv zeta. assert (D : (Rmin u0 u1 < Rmax u0 u1)%R) by (unfold Rmin, Rmax in *; destruct (Rle_dec u0 u1); lra).
  destruct (Reqb_spec (Rmin u0 u1) (Rmax u0 u1)); [lra|]. set (l := Rmin u0 u1) in *. set (h := Rmax u0 u1) in *. clearbody l h.
  assert (I : (0 < / (h - l))%R) by (apply Rinv_0_lt_compat; lra). assert (U : ((h - l) * / (h - l) = 1)%R) by (apply Rinv_r; lra). unfold Rdiv. set (k := (/ (h - l))%R) in *.
  exists (if Rgt_dec u0 u1 then (1 - (iso - l) * k)%R else ((iso - l) * k)%R).
  destruct (Rgt_dec u0 u1); [destruct (Rle_dec (1 - (iso - l) * k) 1), (Rge_dec (1 - (iso - l) * k) 0)|destruct (Rle_dec ((iso - l) * k) 1), (Rge_dec ((iso - l) * k) 0)]; auto; exfalso; nra.
Qed.
(** A single triangle with one corner exactly at the level and the others on either side is crossed by the isoline, but
    three points are found on its sides and nothing is drawn. *)
Definition single := built [[0;1;2]].
Lemma single_valid : Valid single. Proof. apply validb_Valid. vm_compute. reflexivity. Qed.
Lemma single_tri : triangular single. Proof. apply triangularb_ok. vm_compute. reflexivity. Qed.
Definition cornerU (v : Z) : R := IZR (if v =? 0 then 0 else if v =? 1 then 1 else (-1)).
Theorem C70_vertex_refuted : exists m u, Valid m /\ triangular m /\ (exists f, liveF m f /\ crossed m u 0 f) /\ forall len, marchingTriangles m len u 0 = Ok [].
Proof.
  exists single, cornerU. split; [exact single_valid|]. split; [exact single_tri|]. split.
  { exists 0. split; [conc|]. split; [exists 4|exists 2]; (split; [conc|]); (split; [reflexivity|]); corners single; unfold cornerU; cbn [Z.eqb Pos.eqb]; lra. }
  intros len. unfold marchingTriangles. change (faceIter single) with [0]. cbn [foldM]. unfold marchFace at 1. change (faceHalfedges single 0) with (Ok [0; 2; 4]). cbn [bind].
  assert (F : liveF single 0) by conc.
  destruct (scan_step single single_valid single_tri len cornerU 0 0 0 [2; 4] [] 0 0 0 F ltac:(conc) eq_refl) as (x & y & z & -> & _). { corners single. unfold cornerU. cbn [Z.eqb Pos.eqb]. lra. }
  destruct (hit_in (cornerU (ve single (2 * edge 0))) (cornerU (ve single (tw (2 * edge 0)))) 0 (edge 0) []) as (t & ->); [corners single; unfold cornerU; cbn [Z.eqb Pos.eqb]; unfold Rmin, Rmax; destruct (Rle_dec 0 1); lra|corners single; unfold cornerU; cbn [Z.eqb Pos.eqb]; lra|].
  destruct (scan_step single single_valid single_tri len cornerU 0 0 2 [4] ([] ++ [PEdge (edge 0) t]) x y z F ltac:(conc) eq_refl) as (x' & y' & z' & -> & _). { corners single. unfold cornerU. cbn [Z.eqb Pos.eqb]. lra. }
  destruct (hit_in (cornerU (ve single (2 * edge 2))) (cornerU (ve single (tw (2 * edge 2)))) 0 (edge 2) ([] ++ [PEdge (edge 0) t])) as (t' & ->); [corners single; unfold cornerU; cbn [Z.eqb Pos.eqb]; unfold Rmin, Rmax; destruct (Rle_dec 1 (-1)); lra|corners single; unfold cornerU; cbn [Z.eqb Pos.eqb]; lra|].
  destruct (scan_step single single_valid single_tri len cornerU 0 0 4 [] (([] ++ [PEdge (edge 0) t]) ++ [PEdge (edge 2) t']) x' y' z' F ltac:(conc) eq_refl) as (x2 & y2 & z2 & -> & _). { corners single. unfold cornerU. cbn [Z.eqb Pos.eqb]. lra. }
  destruct (hit_in (cornerU (ve single (2 * edge 4))) (cornerU (ve single (tw (2 * edge 4)))) 0 (edge 4) (([] ++ [PEdge (edge 0) t]) ++ [PEdge (edge 2) t'])) as (t2 & ->); [corners single; unfold cornerU; cbn [Z.eqb Pos.eqb]; unfold Rmin, Rmax; destruct (Rle_dec (-1) 0); lra|corners single; unfold cornerU; cbn [Z.eqb Pos.eqb]; lra|].
  reflexivity.
Qed.
Print Assumptions C70_vertex_refuted.
(** Two triangles glued along all three edges: the segment found in the second face is looked up in the first one, and
    the conversion to the second throws. *)
Lemma pillow_tri : triangular pillow. Proof. apply triangularb_ok. vm_compute. reflexivity. Qed.
Definition poleU (v : Z) : R := IZR (if v =? 0 then 0 else 1).
Lemma pillow_between s t : (exists a b c, bvBetween pillow (PEdge 0 s) (PEdge 2 t) = Ok (BFace 0 a b c)) /\ (exists a b c, bvBetween pillow (PEdge 2 t) (PEdge 0 s) = Ok (BFace 0 a b c)).
Proof.
  assert (A : inFace pillow (PEdge 0 s) 0 = Ok (PFace 0 (1 - s) s 0)%R) by (cbn [inFace]; change (faceHalfedges pillow 0) with (Ok [0; 2; 4]); reflexivity).
  assert (B : inFace pillow (PEdge 2 t) 0 = Ok (PFace 0 t 0 (1 - t))%R) by (cbn [inFace]; change (faceHalfedges pillow 0) with (Ok [0; 2; 4]); reflexivity).
  unfold bvBetween. cbn [elemOf]. change (sharedEdge pillow (EE 0) (EE 2)) with (@Ok (option Z) None). change (sharedEdge pillow (EE 2) (EE 0)) with (@Ok (option Z) None).
  assert (X : sharedFace pillow (EE 0) (EE 2) = Ok (Some 0)) by (vm_compute; reflexivity). assert (Y : sharedFace pillow (EE 2) (EE 0) = Ok (Some 0)) by (vm_compute; reflexivity).
  cbn [bind]. rewrite X, Y. cbn [bind]. rewrite A, B. cbn [bind]. split; do 3 eexists; reflexivity.
Qed.
Lemma pillow_rotate len a b c : exists a' b' c', faceRotate90 pillow len (BFace 0 a b c) = Ok (BFace 0 a' b' c').
Proof. unfold faceRotate90. rewrite (sides_ok pillow pillow_valid len 0 pillow_tri ltac:(conc)). cbn [bind]. do 3 eexists. reflexivity. Qed.
Lemma pillow_dot len a b c x y z : exists d, bvDot pillow len (BFace 0 a b c) (BFace 0 x y z) = Ok d.
Proof. unfold bvDot. cbn [elemOfV bvSharedFace bind]. rewrite Z.eqb_refl. cbn [bind bvInFace]. rewrite Z.eqb_refl. cbn [bind]. rewrite (sides_ok pillow pillow_valid len 0 pillow_tri ltac:(conc)). cbn [bind]. eexists. reflexivity. Qed.
Theorem C70_double_edge_refuted : exists m u iso, Valid m /\ triangular m /\ (forall v, u v <> iso) /\ forall len, marchingTriangles m len u iso = Throw.
Proof.
  exists pillow, poleU, (1/2)%R. split; [exact pillow_valid|]. split; [exact pillow_tri|]. assert (NV : forall v, poleU v <> (1/2)%R) by (intros v; unfold poleU; destruct (v =? 0); lra). split; [exact NV|].
  intros len. unfold marchingTriangles. change (faceIter pillow) with [0; 1]. cbn [foldM].
  assert (C0 : low poleU (1/2) 0 = true) by (unfold low, poleU; cbn [Z.eqb]; destruct (Rlt_dec 0 (1/2)); auto; lra).
  assert (C1 : low poleU (1/2) 1 = false) by (unfold low, poleU; cbn [Z.eqb]; destruct (Rlt_dec 1 (1/2)); auto; lra).
  assert (C2 : low poleU (1/2) 2 = false) by (unfold low, poleU; cbn [Z.eqb]; destruct (Rlt_dec 1 (1/2)); auto; lra).
  unfold marchFace at 1. change (faceHalfedges pillow 0) with (Ok [0; 2; 4]). cbn [bind].
  destruct (scan_ok pillow pillow_valid pillow_tri len poleU (1/2) (fun v _ => NV v) 0 [0; 2; 4] [] 0 0 0) as (x & y & z & -> & _); [conc|intros h [<-|[<-|[<-|[]]]]; conc|ring|].
  cbn [bind app filter]. unfold crossb. corners pillow. rewrite C0, C1, C2. cbn [xorb filter map].
  set (p := cr pillow poleU (1/2) 0). set (q := cr pillow poleU (1/2) 4).
  destruct (addNode [] p) as (n1 & i). destruct (addNode n1 q) as (n2 & j). destruct (pillow_between (tOf pillow poleU (1/2) 0) (tOf pillow poleU (1/2) 2)) as ((a & b & c & E1) & (a' & b' & c' & E2)).
  change (PEdge 0 (tOf pillow poleU (1/2) 0)) with p in *. change (PEdge 2 (tOf pillow poleU (1/2) 2)) with q in *. rewrite E1. cbn [bind bvInFace Z.eqb bvRotate90].
  destruct (pillow_rotate len a b c) as (a1 & b1 & c1 & ->). cbn [bind bvNeg]. destruct (pillow_dot len (- a1) (- b1) (- c1) x y z) as (d & ->). cbn [bind].
  unfold marchFace at 1. change (faceHalfedges pillow 1) with (Ok [5; 3; 1]). cbn [bind].
  destruct (scan_ok pillow pillow_valid pillow_tri len poleU (1/2) (fun v _ => NV v) 1 [5; 3; 1] [] 0 0 0) as (x2 & y2 & z2 & -> & _); [conc|intros h [<-|[<-|[<-|[]]]]; conc|ring|].
  cbn [bind app filter]. unfold crossb. corners pillow. rewrite C0, C1, C2. cbn [xorb filter map].
  change (cr pillow poleU (1/2) 5) with q. change (cr pillow poleU (1/2) 1) with p. destruct (addNode n2 q) as (n3 & i'). destruct (addNode n3 p) as (n4 & j'). rewrite E2. reflexivity.
Qed.
Print Assumptions C70_double_edge_refuted.
