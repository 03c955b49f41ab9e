(** C89: fast marching. *)
From Coq Require Import Reals Lra.
From Verif Require Import Base DataModel MeshModel MeshSpec MeshBase MeshOpSpec MeshCheck MeshExamples MeshDataModel MeshHistoryCheck MeshOrbit CollapseProofs DelaunayExamples
  GeoModel IntrinsicModel IntrinsicSpec Intrinsic1 Intrinsic3 Intrinsic4 Intrinsic8 Intrinsic9 IntrinsicProperties PointModel PointProperties FastModel FastSpec Fast2 Fast3 FieldProperties.
Open Scope R_scope.

(** FMMDistance without signs, from any points at vertices and on edges with any initial distances, whichever of the nearest entries the heap yields:
    the search ends. A vertex next to a source point gets the least distance the input gives it. Along every edge to any other vertex the distance grows by at
    most the length of the edge. The distance of every other vertex comes from nearer vertices: along an edge, or through a triangle as that of a front with
    straight lines and unit slope that arrives from inside the triangle, or at an obtuse corner by adding the height. Exactly the vertices that are
    connected to a source have a finite distance. Not covered: source points inside faces (see below) and signed distances. *)
Theorem C89_distances_partial : forall m len pick curves, Valid m -> triangular m -> Metric m len -> leastPick pick -> (forall p x, In (p, x) (concat curves) -> onMesh m p /\ ~ inFace p) ->
  exists angles, cornerAngles m len = Ok angles /\
  exists n d, (forall fuel, (n <= fuel)%nat -> fmmDistance fuel pick m len angles curves = Some (Ok d)) /\
    let from := starts m len (concat curves) in let source v := exists r, from v r in
    (forall v, source v -> exists r, d v = Some r /\ from v r /\ forall r', from v r' -> r <= r') /\
    (forall h a, liveH m h -> d (ve m h) = Some a -> ~ source (ve m (tw h)) -> exists b, d (ve m (tw h)) = Some b /\ b <= a + lh len h) /\
    (forall v b, ~ source v -> d v = Some b -> explained m len d v b) /\
    (forall v, liveV m v -> ((exists b, d v = Some b) <-> exists u, source u /\ walk m u v)).
Proof. intros m len pick curves V TR MT PK H. destruct (cornerAngles_ok m V TR len MT) as (angles & EA & _). exists angles. split; auto. apply (fmm_main m V TR len MT); auto. Qed.
Print Assumptions C89_distances_partial.

(** The overload for vertices: the sources are the given vertices. *)
Theorem C89_from_vertices : forall m len pick sources, Valid m -> triangular m -> Metric m len -> leastPick pick -> (forall v x, In (v, x) sources -> liveV m v) ->
  exists angles, cornerAngles m len = Ok angles /\
  exists n d, (forall fuel, (n <= fuel)%nat -> fmmFromVertices fuel pick m len angles sources = Some (Ok d)) /\
    let source v := exists x, In (v, x) sources in
    (forall v, source v -> exists x, d v = Some x /\ In (v, x) sources /\ forall x', In (v, x') sources -> x <= x') /\
    (forall h a, liveH m h -> d (ve m h) = Some a -> ~ source (ve m (tw h)) -> exists b, d (ve m (tw h)) = Some b /\ b <= a + lh len h) /\
    (forall v b, ~ source v -> d v = Some b -> explained m len d v b) /\
    (forall v, liveV m v -> ((exists b, d v = Some b) <-> exists u, source u /\ walk m u v)).
Proof.
  intros m len pick sources V TR MT PK H. destruct (C89_distances_partial m len pick [map (fun s => (PVertex (fst s), snd s)) sources] V TR MT PK) as (angles & EA & n & d & R & A & B & C & D).
  { intros p x Hp. cbn [concat] in Hp. rewrite app_nil_r in Hp. apply in_map_iff in Hp as ([v y] & E & Hv). injection E as <- <-. split; [apply (H v y Hv)|intros []]. }
  assert (S : forall v r, starts m len (concat [map (fun s => (PVertex (fst s), snd s)) sources]) v r <-> In (v, r) sources).
  { intros v r. cbn [concat]. rewrite app_nil_r. unfold starts. split.
    - intros (p & x & Hp & E). apply in_map_iff in Hp as ([w y] & Q & Hw). injection Q as <- <-. cbn in E. destruct E as [-> ->]. exact Hw.
    - intros Hv. exists (PVertex v), r. split; [apply in_map_iff; exists (v, r); auto|cbn; auto]. }
  assert (SS : forall v, (exists r, starts m len (concat [map (fun s => (PVertex (fst s), snd s)) sources]) v r) <-> exists x, In (v, x) sources) by (intros v; split; intros (r & Hr); exists r; apply S; auto).
  exists angles. split; auto. exists n, d. split; [exact R|]. intros source. split; [|split; [|split]].
  - intros v Hs. apply SS in Hs. destruct (A v Hs) as (r & A1 & A2 & A3). exists r. split; auto. split; [apply S; auto|]. intros x' Hx. apply A3, S. auto.
  - intros h a Lh Ea Ns. apply B; auto. rewrite SS. auto.
  - intros v b Ns. apply C. rewrite SS. auto.
  - intros v Lv. rewrite (D v Lv). split; intros (u & Su & W); exists u; split; auto; apply SS; auto.
Qed.
Print Assumptions C89_from_vertices.

(** a heap that yields a least entry *)
Fixpoint leastAt (q : list entry) : nat :=
  match q with
  | [] => 0%nat
  | e :: r => match nth_error r (leastAt r) with None => 0%nat | Some e' => if Rle_dec (fst e) (fst e') then 0%nat else S (leastAt r) end
  end.
Lemma leastAt_ok : leastPick leastAt.
Proof.
  intros q. induction q as [|e r IH]; intros N; [congruence|]. cbn [leastAt]. destruct r as [|e1 r1]; [exists e; split; auto; intros e' [<-|[]]; lra|]. destruct IH as (e2 & E & L); [discriminate|]. rewrite E. destruct (Rle_dec (fst e) (fst e2)) as [Q|Q].
  - exists e. split; auto. intros e' [<-|He]; [lra|]. apply L in He. lra.
  - exists e2. split; [exact E|]. intros e' [<-|He]; [lra|auto].
Qed.
Example C89_witness : Valid quad /\ triangular quad /\ Metric quad quadLens /\ leastPick leastAt /\ (forall p x, In (p, x) (concat [[(PVertex 0, 0); (PEdge 1 (1 / 3), 2)]]) -> onMesh quad p /\ ~ inFace p) /\ (exists v, liveV quad v /\ ~ exists r, starts quad quadLens (concat [[(PVertex 0, 0); (PEdge 1 (1 / 3), 2)]]) v r).
Proof.
  split; [exact quad_valid|]. split; [exact quad_tri|]. split; [apply range_metric, quad_valid|]. split; [exact leastAt_ok|]. split.
  - intros p x [E|[E|[]]]; injection E as <- <-; (split; [|intros []]); cbn [onMesh]; [apply inV_live|apply inH_live]; vm_compute; reflexivity.
  - exists 3%Z. split; [apply inV_live; vm_compute; reflexivity|]. intros (r & p & x & [E|[E|[]]] & S); injection E as <- <-; cbn [startsFrom] in S; [destruct S as [S _]; discriminate S|].
    assert (V1 : ve quad (eHe 1) = 1%Z) by (vm_compute; reflexivity). assert (V2 : ve quad (tw (eHe 1)) = 2%Z) by (vm_compute; reflexivity). rewrite V1, V2 in S. clear V1 V2; destruct S as [[S _]|[S _]]; discriminate S.
Qed.

(** the lone triangle with sides 4, 5 and 6 *)
Definition lens3 : mdata R := rangeLens (Z.to_nat (eCap lone3)).
Lemma lens3_metric : Metric lone3 lens3. Proof. apply range_metric, lone3_valid. Qed.
Lemma lens3_at : valAt lens3 0 = 4 /\ valAt lens3 1 = 5 /\ valAt lens3 2 = 6.
Proof. unfold lens3, valAt, at_, rangeLens. cbn [dat]. replace (Z.to_nat (eCap lone3)) with 3%nat by (vm_compute; reflexivity). change (4 + INR 0 = 4 /\ 4 + INR 1 = 5 /\ 4 + INR 2 = 6). cbn [INR]. lra. Qed.
(** A source point inside a face gives wrong distances to two of its corners: at the centre of the triangle with sides 4, 5, 6 the first corner gets a
    greater distance than the straight one. *)
Theorem C89_face_source_refuted : exists m len f a b c angles, Valid m /\ triangular m /\ Metric m len /\ liveF m f /\ 0 < a /\ 0 < b /\ 0 < c /\ a + b + c = 1 /\ cornerAngles m len = Ok angles /\
  forall pick, leastPick pick -> exists n d v r, (forall fuel, (n <= fuel)%nat -> fmmDistance fuel pick m len angles [[(PFace f a b c, 0)]] = Some (Ok d)) /\
    d v = Some r /\ (exists r', startsFrom m len (PFace f a b c) 0 v r') /\ forall r', startsFrom m len (PFace f a b c) 0 v r' -> r' < r.
Proof.
  destruct (cornerAngles_ok lone3 lone3_valid lone3_triangular lens3 lens3_metric) as (angles & EA & _). assert (LF : liveF lone3 0) by (apply inF_live; vm_compute; reflexivity).
  exists lone3, lens3, 0%Z, (1 / 3), (1 / 3), (1 / 3), angles. split; [exact lone3_valid|]. split; [exact lone3_triangular|]. split; [exact lens3_metric|]. split; [exact LF|]. do 4 (split; [lra|]). split; [exact EA|]. intros pick PK.
  assert (F0 : fh lone3 0 = 0%Z) by (vm_compute; reflexivity). assert (N1 : nx lone3 0 = 2%Z) by (vm_compute; reflexivity). assert (N2 : nx lone3 2 = 4%Z) by (vm_compute; reflexivity). assert (V0 : ve lone3 0 = 0%Z) by (vm_compute; reflexivity). assert (V1 : ve lone3 2 = 1%Z) by (vm_compute; reflexivity). assert (V2 : ve lone3 4 = 2%Z) by (vm_compute; reflexivity).
  destruct lens3_at as (L0 & L1 & L2). assert (H0 : lh lens3 0 = 4) by exact L0. assert (H1 : lh lens3 2 = 5) by exact L1. assert (H2 : lh lens3 4 = 6) by exact L2.
  pose proof (face_pushes lone3 lone3_valid lens3 lens3_metric 0 (1 / 3) (1 / 3) (1 / 3) 0 LF) as FP. cbv zeta in FP. rewrite F0, N1, N2, V0, V1, V2, H0, H1, H2 in FP.
  match type of FP with _ = Ok ?l => set (q := l) in FP end.
  destruct (fmm_core lone3 lone3_valid lone3_triangular lens3 lens3_metric pick [[(PFace 0 (1 / 3) (1 / 3) (1 / 3), 0)]] angles [q] EA PK) as (n & d & R & A & _).
  { cbn [concat app mapM]. rewrite FP. reflexivity. }
  { intros r v Hr. cbn [concat] in Hr. rewrite app_nil_r in Hr. destruct Hr as [E|[E|[E|[]]]]; injection E as _ <-; apply inV_live; vm_compute; reflexivity. }
  cbn [concat] in A. rewrite app_nil_r in A. destruct (A 0%Z) as (r & D & Fr & _); [eexists; left; reflexivity|]. exists n, d, 0%Z, r. split; [exact R|]. split; [exact D|].
  assert (ER : r = sqrt (88 / 9)). { destruct Fr as [E|[E|[E|[]]]]; [|apply (f_equal snd) in E; discriminate E..]. apply (f_equal fst) in E. cbn [fst] in E. rewrite <- E, Rplus_0_l. f_equal. field. }
  assert (TRUE : forall A B C, norm2_2 (sub2 B A) = 4 ^ 2 -> norm2_2 (sub2 C B) = 5 ^ 2 -> norm2_2 (sub2 A C) = 6 ^ 2 -> norm2_2 (sub2 (add2 (add2 (mul2 A (1 / 3)) (mul2 B (1 / 3))) (mul2 C (1 / 3))) A) = 79 / 9).
  { intros [ax ay] [bx by_] [cx cy]. unfold norm2_2, sub2, add2, mul2. cbn [px py]. intros Q1 Q2 Q3. nra. }
  split.
  - exists (0 + sqrt (79 / 9)). cbn [startsFrom]. rewrite F0, N1, N2, V0, V1, V2, H0, H1, H2. set (y := sqrt (1575 / 64)). assert (Y : y * y = 1575 / 64) by (apply sqrt_sqrt; lra). exists (mk2 0 0), (mk2 4 0), (mk2 (27 / 8) y), (mk2 0 0).
    assert (Q1 : norm2_2 (sub2 (mk2 4 0) (mk2 0 0)) = 4 ^ 2) by (unfold norm2_2, sub2; cbn [px py]; ring). assert (Q2 : norm2_2 (sub2 (mk2 (27 / 8) y) (mk2 4 0)) = 5 ^ 2) by (unfold norm2_2, sub2; cbn [px py]; nra). assert (Q3 : norm2_2 (sub2 (mk2 0 0) (mk2 (27 / 8) y)) = 6 ^ 2) by (unfold norm2_2, sub2; cbn [px py]; nra).
    split; [exact Q1|]. split; [exact Q2|]. split; [exact Q3|]. split; [left; auto|]. rewrite (TRUE _ _ _ Q1 Q2 Q3). reflexivity.
  - intros r' S. cbn [startsFrom] in S. rewrite F0, N1, N2, V0, V1, V2, H0, H1, H2 in S. destruct S as (PA & PB & PC & w & Q1 & Q2 & Q3 & W & ->). destruct W as [[_ ->]|[[W _]|[W _]]]; [|discriminate W..]. rewrite (TRUE _ _ _ Q1 Q2 Q3), ER, Rplus_0_l. apply sqrt_lt_1; lra.
Qed.
Print Assumptions C89_face_source_refuted.

(** Vertices next to a source point are never improved, so with several source points, all at distance zero, a vertex can be farther than a source plus
    the edge to it: here the sources are one corner and a point at the far end of the opposite side. *)
Theorem C89_sources_refuted : exists m len curves angles, Valid m /\ triangular m /\ Metric m len /\ (forall p x, In (p, x) (concat curves) -> onMesh m p /\ ~ inFace p /\ x = 0) /\ cornerAngles m len = Ok angles /\
  forall pick, leastPick pick -> exists n d h a b, (forall fuel, (n <= fuel)%nat -> fmmDistance fuel pick m len angles curves = Some (Ok d)) /\ liveH m h /\ d (ve m h) = Some a /\ d (ve m (tw h)) = Some b /\ a + lh len h < b.
Proof.
  destruct (cornerAngles_ok lone3 lone3_valid lone3_triangular lens3 lens3_metric) as (angles & EA & _). set (cs := [[(PVertex 0, 0); (PEdge 1 1, 0)]]). exists lone3, lens3, cs, angles.
  split; [exact lone3_valid|]. split; [exact lone3_triangular|]. split; [exact lens3_metric|].
  assert (H : forall p x, In (p, x) (concat cs) -> onMesh lone3 p /\ ~ inFace p /\ x = 0). { intros p x [E|[E|[]]]; injection E as <- <-; (split; [|split; [intros []|reflexivity]]); cbn [onMesh]; [apply inV_live|apply inH_live]; vm_compute; reflexivity. }
  split; [exact H|]. split; [exact EA|]. intros pick PK. destruct (fmm_main lone3 lone3_valid lone3_triangular lens3 lens3_metric pick cs angles EA PK) as (n & d & R & A & _); [intros p x Hp; destruct (H p x Hp) as (? & ? & _); auto|].
  assert (E1 : ve lone3 (eHe 1) = 1%Z) by (vm_compute; reflexivity). assert (E2 : ve lone3 (tw (eHe 1)) = 2%Z) by (vm_compute; reflexivity). assert (V0 : ve lone3 0 = 0%Z) by (vm_compute; reflexivity). assert (V1 : ve lone3 (tw 0) = 1%Z) by (vm_compute; reflexivity). destruct lens3_at as (L0 & L1 & L2).
  assert (S : forall v r, starts lone3 lens3 (concat cs) v r <-> (v = 0%Z /\ r = 0) \/ (v = 1%Z /\ r = 5) \/ (v = 2%Z /\ r = 0)).
  { intros v r. unfold starts. split.
    - intros (p & x & [E|[E|[]]] & Q); injection E as <- <-; cbn [startsFrom] in Q; [auto|]. rewrite E1, E2, L1 in Q. destruct Q as [[-> ->]|[-> ->]]; right; [left|right]; split; auto; lra.
    - intros [[-> ->]|Q]; [exists (PVertex 0), 0; split; [left; auto|cbn; auto]|]. exists (PEdge 1 1), 0. split; [right; left; auto|]. cbn [startsFrom]. rewrite E1, E2, L1. destruct Q as [[-> ->]|[-> ->]]; [left|right]; split; auto; lra. }
  destruct (A 0%Z) as (a & Da & Fa & _); [exists 0; apply S; auto|]. destruct (A 1%Z) as (b & Db & Fb & _); [exists 5; apply S; auto|]. apply S in Fa, Fb. exists n, d, 0%Z, a, b. split; [exact R|]. split; [apply inH_live; vm_compute; reflexivity|]. rewrite V0, V1. split; [exact Da|]. split; [exact Db|].
  assert (a = 0) by (destruct Fa as [[_ X]|[[X _]|[X _]]]; [exact X|discriminate X..]). assert (b = 5) by (destruct Fb as [[X _]|[[_ X]|[X _]]]; [discriminate X|exact X|discriminate X]). assert (HL : lh lens3 0 = 4) by exact L0. rewrite HL. lra.
Qed.
Print Assumptions C89_sources_refuted.
