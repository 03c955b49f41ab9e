(** removeFaceAlongBoundary and separateEdge: the cases they refuse *)
From Verif Require Import Base MeshModel MeshSpec MeshBase MeshExec MeshOrbit MeshAlloc MeshFlip MeshThms MeshOpSpec CountSpec MeshCutModel.
Open Scope Z_scope.

Section Cut.
Variable m : mesh.
Hypothesis V : Valid m.
Let ST := va_st _ V. Let CN := va_cn _ V.

Definition bdSide (h : Z) : bool := fFill m <=? fa m (tw h).
Lemma boundarySides_ok l : (forall h, In h l -> liveH m h) -> boundarySides m l = Ok (length (filter bdSide l), last (filter bdSide l) INVALID).
Proof.
  intros L. unfold boundarySides.
  assert (G : forall l n d, (forall h, In h l -> liveH m h) -> foldM (fun (s : nat * Z) he => let* b := isInterior m (tw he) in Ok (if b then s else (S (fst s), he))) l (n, d) = Ok ((n + length (filter bdSide l))%nat, last (filter bdSide l) d)).
  { clear l L. induction l as [|x t IH]; intros n d L; cbn [foldM filter]; [cbn; rewrite Nat.add_0_r; auto|].
    assert (Lx : liveH m x) by (apply L; left; auto). rewrite (isInterior_ok m _ V (cn_tw _ CN x Lx)). cbn [bind]. change (fFill m <=? fa m (tw x)) with (bdSide x).
    destruct (bdSide x) eqn:E; cbn [negb].
    - cbn [fst]. rewrite IH by (intros; apply L; right; auto). f_equal. cbn [length]. f_equal; [lia|]. destruct (filter bdSide t); cbn; auto. clear. revert z. induction l; cbn; auto.
    - apply IH. intros; apply L; right; auto. }
  rewrite G by auto. cbn. reflexivity.
Qed.

Lemma side_spec h : bdSide h = true <-> ext m (tw h).
Proof. unfold bdSide, ext. rewrite Z.leb_le. reflexivity. Qed.
Lemma face_sides f : liveF m f -> exists l, faceHalfedges m f = Ok l /\ NoDup (filter bdSide l) /\ (forall h, In h (filter bdSide l) <-> liveH m h /\ fa m h = f /\ ext m (tw h)) /\
  boundarySides m l = Ok (length (filter bdSide l), last (filter bdSide l) INVALID).
Proof.
  intros L. destruct (faceHalfedges_ok m V f (or_introl L)) as (l & E & _ & _ & ND & R). exists l. split; auto. split; [apply NoDup_filter; auto|]. split.
  - intros h. rewrite filter_In, R, side_spec. tauto.
  - apply boundarySides_ok. intros h H. apply R in H. tauto.
Qed.
Lemma cut_none f : liveF m f -> (forall h, liveH m h -> fa m h = f -> ~ ext m (tw h)) -> removeFaceAlongBoundary m f = Throw.
Proof.
  intros L N. destruct (face_sides f L) as (l & E & ND & R & B). unfold removeFaceAlongBoundary. rewrite E. cbn [bind]. rewrite B. cbn [bind].
  destruct (filter bdSide l) as [|x t]; auto. exfalso. destruct (R x) as [R1 _]. destruct R1 as (R1 & R2 & R3); [left; auto|]. exact (N x R1 R2 R3).
Qed.
Lemma cut_many f h h' : liveF m f -> h <> h' -> liveH m h -> fa m h = f -> ext m (tw h) -> liveH m h' -> fa m h' = f -> ext m (tw h') -> removeFaceAlongBoundary m f = Ok (m, false).
Proof.
  intros L N A1 A2 A3 B1 B2 B3. destruct (face_sides f L) as (l & E & ND & R & B). unfold removeFaceAlongBoundary. rewrite E. cbn [bind]. rewrite B. cbn [bind].
  pose proof (proj2 (R h) (conj A1 (conj A2 A3))) as I1. pose proof (proj2 (R h') (conj B1 (conj B2 B3))) as I2.
  destruct (filter bdSide l) as [|x [|y t]]; auto; exfalso; cbn in I1, I2; [tauto|]. destruct I1 as [->|[]]; destruct I2 as [->|[]]; auto.
Qed.
(** the one boundary side of a face *)
Definition onlySide (f h : Z) : Prop := liveH m h /\ fa m h = f /\ ext m (tw h) /\ forall k, liveH m k -> fa m k = f -> ext m (tw k) -> k = h.
Lemma onlySide_list f h : liveF m f -> onlySide f h -> exists l, faceHalfedges m f = Ok l /\ boundarySides m l = Ok (1%nat, h) /\ (forall x, In x l <-> liveH m x /\ fa m x = f) /\ NoDup l.
Proof.
  intros L (H1 & H2 & H3 & H4). destruct (face_sides f L) as (l & E & ND & R & B). exists l. split; auto. destruct (faceHalfedges_ok m V f (or_introl L)) as (l' & E' & _ & _ & ND' & R').
  rewrite E in E'. injection E' as <-. split; [|split; auto]. rewrite B. pose proof (proj2 (R h) (conj H1 (conj H2 H3))) as I.
  assert (U : forall x, In x (filter bdSide l) -> x = h). { intros x Hx. apply R in Hx as (P & Q & T). auto. }
  destruct (filter bdSide l) as [|x [|y t]]; [destruct I| |].
  - rewrite (U x (or_introl eq_refl)). reflexivity.
  - exfalso. apply NoDup_cons_iff in ND as [N _]. apply N. left. rewrite (U x (or_introl eq_refl)). apply U. right; left; auto.
Qed.
Lemma cut_one f h : liveF m f -> onlySide f h -> forall g, liveH m g -> nx m g = h -> forall b, vIsBoundary m (ve m g) = Ok b ->
  if b then removeFaceAlongBoundary m f = Ok (m, false) else forall m', removeFaceAlongBoundary m f <> Ok (m', false).
Proof.
  intros L O g Lg N b Eb. destruct (onlySide_list f h L O) as (l & E & B & R & ND). destruct O as (H1 & H2 & H3 & H4).
  unfold removeFaceAlongBoundary. rewrite E. cbn [bind]. rewrite B. cbn [bind].
  pose proof (cn_tw _ CN h H1) as Lt.
  destruct (prev_circulator m h V H1) as (p & P1 & _ & P3 & P4 & _ & U). destruct (prev_circulator m (tw h) V Lt) as (q & _ & Q2 & _).
  rewrite (next_ok m h) by (apply liveH_bnd in H1; auto; lia). cbn [bind]. rewrite P1. cbn [bind]. rewrite (next_ok m (tw h)) by (apply liveH_bnd in Lt; auto; lia). cbn [bind]. rewrite Q2. cbn [bind].
  rewrite faceOf_ok by (apply liveH_bnd in Lt; auto; lia). cbn [bind]. rewrite vertexOf_ok by (apply liveH_bnd in P3; auto; lia). cbn [bind].
  rewrite <- (U g Lg N), Eb. cbn [bind]. destruct b; auto.
  intros m'. intros K. repeat (apply bind_Ok_inv in K as (? & _ & K)). discriminate.
Qed.
Lemma cut_unchanged f m' : removeFaceAlongBoundary m f = Ok (m', false) -> m' = m.
Proof.
  unfold removeFaceAlongBoundary. intros K. apply bind_Ok_inv in K as (l & E & K). apply bind_Ok_inv in K as ([n h] & B & K). destruct n as [|[|n]]; [discriminate| |congruence].
  do 7 (apply bind_Ok_inv in K as (? & _ & K)). destruct x5; [|].
  all: try congruence. repeat (apply bind_Ok_inv in K as (? & _ & K)). discriminate.
Qed.

Lemma cut_refused f : liveF m f ->
  ((forall h, liveH m h -> fa m h = f -> ~ ext m (tw h)) -> removeFaceAlongBoundary m f = Throw) /\
  (forall h h', liveH m h -> fa m h = f -> ext m (tw h) -> liveH m h' -> fa m h' = f -> ext m (tw h') -> h <> h' -> removeFaceAlongBoundary m f = Ok (m, false)) /\
  (forall h g, liveH m h -> fa m h = f -> ext m (tw h) -> (forall k, liveH m k -> fa m k = f -> ext m (tw k) -> k = h) -> liveH m g -> nx m g = h ->
     (onBoundary m (ve m g) -> removeFaceAlongBoundary m f = Ok (m, false)) /\
     (~ onBoundary m (ve m g) -> forall m', removeFaceAlongBoundary m f <> Ok (m', false))) /\
  (forall m', removeFaceAlongBoundary m f = Ok (m', false) -> m' = m).
Proof.
  intros L. split; [apply cut_none; auto|]. split; [intros h h' A1 A2 A3 B1 B2 B3 N; apply (cut_many f h h'); auto|]. split; [|intros m'; apply cut_unchanged].
  intros h g A1 A2 A3 U Lg N. assert (O : onlySide f h) by (exact (conj A1 (conj A2 (conj A3 U)))). destruct (vertex_boundary m (ve m g) V (cn_ve _ CN g Lg)) as (b & E & P & _).
  pose proof (cut_one f h L O g Lg N b E) as C. split; intros K; destruct b; try exact C.
  - exfalso. assert (false = true) by (apply P; exact K). discriminate.
  - exfalso. apply K, P. auto.
Qed.

(** separateEdge *)
Lemma sep_boundary e : liveH m (eHe e) -> ext m (tw (eHe e)) -> separateEdge m e = Throw.
Proof. intros L X. unfold separateEdge. rewrite eIsBoundary_ok by auto. cbn [bind]. unfold ext in X. apply Z.leb_le in X. rewrite X. reflexivity. Qed.
Lemma vb_true v : liveV m v -> onBoundary m v -> vIsBoundary m v = Ok true.
Proof. intros L O. destruct (vertex_boundary m v V L) as (b & E & P & _). rewrite E. f_equal. apply P. exact O. Qed.
Lemma vb_false v : liveV m v -> ~ onBoundary m v -> vIsBoundary m v = Ok false.
Proof. intros L O. destruct (vertex_boundary m v V L) as (b & E & P & _). rewrite E. f_equal. destruct b; auto. exfalso. apply O, P. auto. Qed.
Lemma sep_both e : liveH m (eHe e) -> onBoundary m (ve m (eHe e)) -> onBoundary m (ve m (tw (eHe e))) -> separateEdge m e = Throw.
Proof.
  intros L A B. pose proof (cn_tw _ CN _ L) as Lt. unfold separateEdge. rewrite eIsBoundary_ok by auto. cbn [bind]. destruct (fFill m <=? fa m (tw (eHe e))); [reflexivity|]. cbn [negb guard bind].
  rewrite vertexOf_ok by (apply liveH_bnd in L; auto; lia). cbn [bind]. rewrite vb_true by (auto; apply (cn_ve _ CN); auto). cbn [bind].
  rewrite vertexOf_ok by (apply liveH_bnd in Lt; auto; lia). cbn [bind]. rewrite vb_true by (auto; apply (cn_ve _ CN); auto). cbn [bind andb negb].
  destruct (prev_circulator m _ V Lt) as (q & Q1 & _). rewrite next_ok by (apply liveH_bnd in Lt; auto; lia). cbn [bind]. rewrite Q1. cbn [bind].
  rewrite faceOf_ok by (apply liveH_bnd in L; auto; lia). cbn [bind]. rewrite faceOf_ok by (apply liveH_bnd in Lt; auto; lia). reflexivity.
Qed.
End Cut.
