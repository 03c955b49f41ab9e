(** Proofs about BaryModel.v *)
From Verif Require Import Base MeshModel MeshSpec MeshBase MeshExec MeshOrbit MeshFlip MeshOpSpec PointModel PointSpec PointProofs GeoModel GeoSpec GeoProofs GeoVec BaryModel BarySpec.
From Coq Require Import Reals Lra.
Open Scope Z_scope.

Section P.
Variable m : mesh.
Hypothesis V : Valid m.
Let CN := va_cn _ V.

Lemma half_live h : liveH m h -> liveH m (2 * edge h).
Proof.
  intros L. assert (X : h = 2 * edge h \/ h = tw (2 * edge h)) by (apply edge_eq; symmetry; apply edge_eHe).
  destruct X as [X|X]; [rewrite <- X; auto|]. assert (tw h = 2 * edge h) as <- by (rewrite X at 1; apply tw_tw). apply CN; auto.
Qed.
Lemma half_cases h e : edge h = e -> h = 2 * e \/ h = tw (2 * e).
Proof. intros E. apply edge_eq. rewrite E. symmetry. apply edge_eHe. Qed.
Lemma edge_half e : edge (2 * e) = e. Proof. apply edge_eHe. Qed.
Lemma edge_half' e : edge (tw (2 * e)) = e. Proof. rewrite tw_edge. apply edge_eHe. Qed.
Lemma half_face e : liveH m (2 * e) -> liveF m (fa m (2 * e)).
Proof. intros L. apply live_face_of; auto. apply (cn_ebd _ CN); auto. lia. Qed.

Lemma onEdge_touch a e : liveH m (2 * e) -> onEdge m a e -> liveF m (fa m (2 * e)) /\ touches m a (fa m (2 * e)).
Proof.
  intros L O. split; [apply half_face; auto|]. destruct a as [v|e'|f]; cbn [onEdge touches] in *; [|subst; exists (2 * e); auto using edge_half|destruct O].
  destruct O as (h & Lh & Eh & Vh). destruct (half_cases h e Eh) as [->| ->].
  - exists (2 * e); auto.
  - exists (nx m (2 * e)). split; [apply (cn_nx _ CN); auto|]. split; [apply (cn_fnx _ CN); auto|]. rewrite (cn_vnx _ CN); auto.
Qed.

Lemma faceHasVertex_ok f v : liveFL m f -> exists b, faceHasVertex m f v = Ok b /\ (b = true <-> touches m (EV v) f).
Proof.
  intros H. unfold faceHasVertex. destruct (faceHalfedges_ok m V f H) as (l & E & _ & _ & _ & R). rewrite E. cbn [bind].
  destruct (anyM_ok (fun h => let* u := vertexOf m h in Ok (u =? v)) (fun x => ve m x = v) l) as (b & Eb & Kb).
  { intros x Hx. apply R in Hx as (Lx & _). rewrite (p_vert m V) by auto. eexists. split; [reflexivity|apply Z.eqb_eq]. }
  exists b. split; auto. rewrite Kb. cbn [touches]. split; intros (h & X).
  - destruct X as (X & Y). apply R in X as (A & B). eauto.
  - destruct X as (A & B & C). exists h. split; auto. apply R. auto.
Qed.
Lemma faceHasEdge_ok f e : liveFL m f -> exists b, faceHasEdge m f e = Ok b /\ (b = true <-> touches m (EE e) f).
Proof.
  intros H. unfold faceHasEdge. destruct (faceHalfedges_ok m V f H) as (l & E & _ & _ & _ & R). rewrite E. cbn [bind].
  destruct (anyM_ok (fun h => Ok (edge h =? e)) (fun x => edge x = e) l) as (b & Eb & Kb); [intros x _; eexists; split; [reflexivity|apply Z.eqb_eq]|].
  exists b. split; auto. rewrite Kb. cbn [touches]. split; intros (h & X).
  - destruct X as (X & Y). apply R in X as (A & B). eauto.
  - destruct X as (A & B & C). exists h. split; auto. apply R. auto.
Qed.
Lemma edgeHasVertex_ok e v : liveH m (2 * e) -> exists b, edgeHasVertex m e v = Ok b /\ (b = true <-> onEdge m (EV v) e).
Proof.
  intros L. unfold edgeHasVertex. change (eHe e) with (2 * e). assert (L1 := cn_nx _ CN _ L).
  rewrite (p_vert m V) by auto. cbn [bind]. rewrite (p_next m V) by auto. cbn [bind]. rewrite (p_vert m V) by auto. cbn [bind].
  eexists. split; [reflexivity|]. rewrite Bool.orb_true_iff, !Z.eqb_eq. rewrite (cn_vnx _ CN) by auto. cbn [onEdge]. split.
  - intros [X|X]; [exists (2 * e); auto using edge_half|]. exists (tw (2 * e)). split; [apply (cn_tw _ CN); auto|]. auto using edge_half'.
  - intros (h & Lh & Eh & Vh). destruct (half_cases h e Eh) as [->| ->]; auto.
Qed.

(** the three corners of a triangle *)
Lemma tri_facts f : triangular m -> liveF m f ->
  let a := fh m f in let b := nx m a in let c := nx m b in
  liveH m a /\ liveH m b /\ liveH m c /\ fa m a = f /\ fa m b = f /\ fa m c = f /\ nx m c = a /\ ve m (tw a) = ve m b /\ ve m (tw b) = ve m c /\ ve m (tw c) = ve m a.
Proof.
  intros T F. cbv zeta. assert (FL : liveFL m f) by (left; auto). destruct (cn_fh _ CN f FL) as (L & Ff).
  assert (L1 := cn_nx _ CN _ L). assert (L2 := cn_nx _ CN _ L1).
  assert (F1 : fa m (nx m (fh m f)) = f) by (rewrite (cn_fnx _ CN); auto).
  assert (F2 : fa m (nx m (nx m (fh m f))) = f) by (rewrite (cn_fnx _ CN); auto).
  assert (I : ~ ext m (fh m f)) by (apply (liveF_not_ext m); auto; rewrite Ff; auto).
  destruct (T _ L I) as (_ & N3 & _). pose proof (cn_vnx _ CN _ L) as V0. pose proof (cn_vnx _ CN _ L1) as V1. pose proof (cn_vnx _ CN _ L2) as V2. rewrite N3 in V2.
  do 3 (split; [assumption|]). do 3 (split; [assumption|]). split; [assumption|]. auto.
Qed.
(** the value along an edge read from one of its halfedges *)
Lemma along_half h e : edge h = e -> liveH m h -> if orientation h then h = 2 * e else h = tw (2 * e).
Proof.
  intros E L. unfold orientation. destruct (Z.eqb_spec (h mod 2) 0) as [X|X]; destruct (half_cases h e E) as [->| ->]; auto.
  - rewrite tw_mod in X. exfalso. lia.
  - exfalso. lia.
Qed.

Lemma bvInFace_ok b f : triangular m -> onMeshV m b -> liveF m f -> touches m (elemOfV b) f ->
  exists x y z, bvInFace m b f = Ok (BFace f x y z) /\ sameVector m (BFace f x y z) b /\ (zeroSum b -> zeroSum (BFace f x y z)).
Proof.
  intros T H F X. destruct (tri_facts f T F) as (La & Lb & Lc & Fa & Fb & Fc & N3 & V0 & V1 & V2).
  destruct b as [v|e x y|g x y z]; cbn [bvInFace elemOfV] in *.
  - destruct (faceHasVertex_ok f v (or_introl F)) as (c & E & K). rewrite E. cbn [bind]. apply K in X. rewrite X.
    exists 0%R, 0%R, 0%R. split; [reflexivity|]. split; [intros d; cbn; lra|cbn; lra].
  - rewrite (p_fHe m V) by (left; auto). cbn [bind].
    assert (TX : exists h, edge h = e /\ (h = fh m f \/ h = nx m (fh m f) \/ h = nx m (nx m (fh m f)))).
    { destruct X as (h & Lh & Fh & Eh). exists h. split; auto. apply (tri_touch m V); auto. }
    clear X.
    assert (OR : forall h, liveH m h -> edge h = e -> forall d, ((if orientation h then x else y) * d (ve m h) + (if orientation h then y else x) * d (ve m (tw h)) = x * d (ve m (2 * e)) + y * d (ve m (tw (2 * e))))%R).
    { intros h Lh Eh d. pose proof (along_half h e Eh Lh) as Q. destruct (orientation h); subst h; [reflexivity|]. rewrite tw_tw. lra. }
    destruct (Z.eqb_spec e (edge (fh m f))) as [E|E].
    { specialize (OR _ La (eq_sym E)). destruct (orientation (fh m f)); do 3 eexists; (split; [reflexivity|]); (split; [intros d; specialize (OR d); cbn [change]; rewrite V0 in OR; lra|cbn; lra]). }
    rewrite (p_next m V) by auto. cbn [bind].
    destruct (Z.eqb_spec e (edge (nx m (fh m f)))) as [E1|E1].
    { specialize (OR _ Lb (eq_sym E1)). destruct (orientation (nx m (fh m f))); do 3 eexists; (split; [reflexivity|]); (split; [intros d; specialize (OR d); cbn [change]; rewrite V1 in OR; lra|cbn; lra]). }
    rewrite (p_next m V) by auto. cbn [bind].
    assert (E2 : edge (nx m (nx m (fh m f))) = e). { destruct TX as (h & Eh & [-> |[-> | ->]]); congruence. }
    specialize (OR _ Lc E2). destruct (orientation (nx m (nx m (fh m f)))); do 3 eexists; (split; [reflexivity|]); (split; [intros d; specialize (OR d); cbn [change]; rewrite V2 in OR; lra|cbn; lra]).
  - cbn [touches] in X. subst g. rewrite Z.eqb_refl. exists x, y, z. split; [reflexivity|]. split; [intros d; reflexivity|auto].
Qed.
Lemma bvInFace_throw b f : (forall e x y, b <> BEdge e x y) -> liveF m f -> ~ touches m (elemOfV b) f -> bvInFace m b f = Throw.
Proof.
  intros N F X. destruct b as [v|e x y|g x y z]; cbn [bvInFace elemOfV touches] in *.
  - destruct (faceHasVertex_ok f v (or_introl F)) as (c & E & K). rewrite E. cbn [bind touches] in *. destruct c; auto. exfalso. apply X. apply K. reflexivity.
  - exfalso. eapply N. reflexivity.
  - destruct (Z.eqb_spec g f); congruence.
Qed.
(** an edge vector is moved to any face, without an error *)
Lemma bvInFace_any e x y f : liveF m f -> exists x' y' z', bvInFace m (BEdge e x y) f = Ok (BFace f x' y' z').
Proof.
  intros F. assert (FL : liveFL m f) by (left; auto). destruct (cn_fh _ CN f FL) as (L & Ff). assert (L1 := cn_nx _ CN _ L).
  cbn [bvInFace]. rewrite (p_fHe m V) by auto. cbn [bind]. rewrite (p_next m V) by auto. cbn [bind]. rewrite (p_next m V) by auto. cbn [bind].
  destruct (e =? _); [destruct (orientation _); eauto|]. destruct (e =? _); [destruct (orientation _); eauto|]. destruct (orientation _); eauto.
Qed.
Lemma bvInSomeFace_ok b : triangular m -> onMeshV m b ->
  exists f x y z, bvInSomeFace m b = Ok (BFace f x y z) /\ liveF m f /\ touches m (elemOfV b) f /\ sameVector m (BFace f x y z) b /\ (zeroSum b -> zeroSum (BFace f x y z)).
Proof.
  intros T H. destruct b as [v|e x y|g x y z]; cbn [bvInSomeFace elemOfV onMeshV] in *.
  - destruct (cn_vh _ CN v H) as (L & Ev). pose proof (vh_interior m V v H) as I. rewrite (p_vHe m V) by auto. cbn [bind]. rewrite (p_face m V) by auto. cbn [bind].
    do 4 eexists. split; [reflexivity|]. split; [apply live_face_of; auto|]. split; [exists (vh m v); auto|]. split; [intros d; cbn; lra|cbn; lra].
  - change (eHe e) with (2 * e). pose proof (half_face e H) as F. destruct (tri_facts _ T F) as (La & Lb & Lc & Fa & Fb & Fc & N3 & V0 & V1 & V2).
    rewrite (p_face m V) by auto. cbn [bind]. rewrite (p_fHe m V) by (left; auto). cbn [bind].
    assert (TX := tri_touch m V _ (2 * e) T F H eq_refl).
    assert (TE : touches m (EE e) (fa m (2 * e))) by (exists (2 * e); auto using edge_half).
    destruct (Z.eqb_spec (2 * e) (fh m (fa m (2 * e)))) as [E|E].
    { do 4 eexists. split; [reflexivity|]. split; auto. split; auto. split; [|cbn; lra]. intros d. cbn [change]. rewrite <- V0, <- E. lra. }
    rewrite (p_next m V) by auto. cbn [bind].
    destruct (Z.eqb_spec (2 * e) (nx m (fh m (fa m (2 * e))))) as [E1|E1].
    { do 4 eexists. split; [reflexivity|]. split; auto. split; auto. split; [|cbn; lra]. intros d. cbn [change]. rewrite <- V1, <- E1. lra. }
    destruct TX as [TX|[TX|TX]]; try congruence.
    do 4 eexists. split; [reflexivity|]. split; auto. split; auto. split; [|cbn; lra]. intros d. cbn [change]. rewrite <- V2, <- TX. lra.
  - exists g, x, y, z. cbn [touches]. split; [reflexivity|]. split; auto. split; [reflexivity|]. split; [intros d; reflexivity|auto].
Qed.
Lemma bvInEdge_ok b e : onMeshV m b -> liveH m (2 * e) ->
  (onEdge m (elemOfV b) e -> exists x y, bvInEdge m b e = Ok (BEdge e x y) /\ sameVector m (BEdge e x y) b /\ (zeroSum b -> zeroSum (BEdge e x y))) /\
  (~ onEdge m (elemOfV b) e -> bvInEdge m b e = Throw).
Proof.
  intros H L. destruct b as [v|e' x y|g x y z]; cbn [bvInEdge elemOfV] in *.
  - destruct (edgeHasVertex_ok e v L) as (c & E & K). rewrite E. cbn [bind]. destruct c; split; intros X.
    + exists 0%R, 0%R. split; [reflexivity|]. split; [intros d; cbn; lra|cbn; lra].
    + exfalso. tauto.
    + apply K in X. discriminate.
    + reflexivity.
  - cbn [onEdge]. destruct (Z.eqb_spec e' e) as [->|N]; split; intros X; try congruence. exists x, y. split; [reflexivity|]. split; [intros d; reflexivity|auto].
  - cbn [onEdge]. split; [intros []|reflexivity].
Qed.

Lemma bvSharedFace_ok a b : liveE m a -> liveE m b ->
  exists r, bvSharedFace m a b = Ok r /\ match r with Some f => liveF m f /\ touches m a f /\ touches m b f | None => forall f, liveF m f -> ~ (touches m a f /\ touches m b f) end.
Proof.
  intros A B.
  assert (G : forall fs c d (t : Z -> res bool), (forall f, In f fs <-> liveF m f /\ touches m c f) -> (forall f, liveF m f -> exists x, t f = Ok x /\ (x = true <-> touches m d f)) ->
    exists r, firstM t fs = Ok r /\ match r with Some f => liveF m f /\ touches m c f /\ touches m d f | None => forall f, liveF m f -> ~ (touches m c f /\ touches m d f) end).
  { intros fs c d t K J. destruct (firstM_ok t (fun f => touches m d f) fs) as (r & E & Q).
    - intros f Hf. apply K in Hf as (Hf & _). apply J; auto.
    - exists r. split; auto. destruct r as [f|]; [destruct Q as (Q1 & Q2); apply K in Q1; tauto|]. intros f Hf (X & Y). apply (Q f); auto. apply K. auto. }
  assert (K1 : forall f c d (t : res bool), liveF m f -> touches m c f -> (forall g, touches m c g -> g = f) -> (exists x, t = Ok x /\ (x = true <-> touches m d f)) ->
    exists r, (let* q := t in Ok (if q then Some f else None)) = Ok r /\ match r with Some f => liveF m f /\ touches m c f /\ touches m d f | None => forall f, liveF m f -> ~ (touches m c f /\ touches m d f) end).
  { intros f c d t F Tc U (x & -> & K). cbn [bind]. eexists. split; [reflexivity|]. destruct x; [split; auto; split; auto; apply K; auto|].
    intros g Hg (X & Y). apply U in X. subst g. apply K in Y. discriminate. }
  assert (SW : forall t c d, (exists r, t = Ok r /\ match r with Some f => liveF m f /\ touches m c f /\ touches m d f | None => forall f, liveF m f -> ~ (touches m c f /\ touches m d f) end) ->
     exists r : option Z, t = Ok r /\ match r with Some f => liveF m f /\ touches m d f /\ touches m c f | None => forall f, liveF m f -> ~ (touches m d f /\ touches m c f) end).
  { intros t c d (r & E & Q). exists r. split; auto. destruct r; [tauto|]. intros f Hf (X & Y). apply (Q f); auto. }
  destruct a as [v|e|f], b as [w|e'|g]; cbn [bvSharedFace liveE] in *.
  - destruct (adjFaces_ok m V v A) as (fs & E & K). rewrite E. cbn [bind]. apply G; auto. intros f Hf. apply faceHasVertex_ok. left; auto.
  - destruct (edgeFaces_ok m V e' B) as (fs & E & K). rewrite E. cbn [bind]. apply SW. apply G; auto. intros f Hf. apply faceHasVertex_ok. left; auto.
  - apply SW. apply K1; auto; [reflexivity|]. apply faceHasVertex_ok. left; auto.
  - destruct (edgeFaces_ok m V e A) as (fs & E & K). rewrite E. cbn [bind]. apply G; auto. intros f Hf. apply faceHasVertex_ok. left; auto.
  - destruct (edgeFaces_ok m V e A) as (fs & E & K). rewrite E. cbn [bind]. apply G; auto. intros f Hf. apply faceHasEdge_ok. left; auto.
  - apply SW. apply K1; auto; [reflexivity|]. apply faceHasEdge_ok. left; auto.
  - apply K1; auto; [reflexivity|]. apply faceHasVertex_ok. left; auto.
  - apply K1; auto; [reflexivity|]. apply faceHasEdge_ok. left; auto.
  - eexists. split; [reflexivity|]. cbn [touches]. destruct (Z.eqb_spec f g) as [->|N]; auto. intros h Hh (X & Y). congruence.
Qed.
Lemma bvSharedEdge_ok a b : liveE m a -> liveE m b ->
  exists r, bvSharedEdge m a b = Ok r /\ match r with Some e => liveH m (2 * e) /\ onEdge m a e /\ onEdge m b e | None => a <> b -> forall e, liveH m (2 * e) -> ~ (onEdge m a e /\ onEdge m b e) end.
Proof.
  intros A B. destruct a as [v|e|f], b as [w|e'|g]; cbn [liveE] in *;
    try (eexists; split; [reflexivity|]; cbn [onEdge]; intros _ ? _ (? & ?); contradiction).
  - exact (sharedEdge_distinct m V (EV v) (EV w) A B).
  - cbn [bvSharedEdge]. destruct (edgeHasVertex_ok e' v B) as (c & E & K). rewrite E. cbn [bind]. eexists. split; [reflexivity|].
    destruct c; [split; auto; split; [apply K; auto|reflexivity]|]. intros _ x Hx (X & Y). cbn [onEdge] in Y. subst. apply K in X. discriminate.
  - cbn [bvSharedEdge]. destruct (edgeHasVertex_ok e w A) as (c & E & K). rewrite E. cbn [bind]. eexists. split; [reflexivity|].
    destruct c; [split; auto; split; [reflexivity|apply K; auto]|]. intros _ x Hx (X & Y). cbn [onEdge] in X. subst. apply K in Y. discriminate.
  - cbn [bvSharedEdge]. eexists. split; [reflexivity|]. destruct (Z.eqb_spec e e') as [->|N]; cbn [onEdge]; auto. intros _ x Hx (-> & X). congruence.
Qed.

Lemma onMeshV_E b : onMeshV m b <-> liveE m (elemOfV b). Proof. destruct b; cbn; tauto. Qed.
Lemma onMesh_E p : onMesh m p <-> liveE m (elemOf p). Proof. destruct p; cbn; tauto. Qed.

Lemma combine_ok op s a b : (forall x y, op x y = x + s * y)%R -> triangular m -> onMeshV m a -> onMeshV m b ->
  ((exists f, liveF m f /\ touches m (elemOfV a) f /\ touches m (elemOfV b) f) ->
   exists c, bvCombine op m a b = Ok c /\ onMeshV m c /\ (forall d, change m d c = (change m d a + s * change m d b)%R) /\ (zeroSum a -> zeroSum b -> zeroSum c)) /\
  (~ (exists f, liveF m f /\ touches m (elemOfV a) f /\ touches m (elemOfV b) f) -> bvCombine op m a b = Throw).
Proof.
  intros OP T A B. assert (EA := proj1 (onMeshV_E a) A). assert (EB := proj1 (onMeshV_E b) B).
  assert (G : let rest := let* e := bvSharedEdge m (elemOfV a) (elemOfV b) in
    match e with
    | Some e => let* u := bvInEdge m a e in let* w := bvInEdge m b e in match u, w with BEdge _ x y, BEdge _ x' y' => Ok (BEdge e (op x x') (op y y')) | _, _ => UB end
    | None => let* f := bvSharedFace m (elemOfV a) (elemOfV b) in
      match f with None => Throw | Some f => let* u := bvInFace m a f in let* w := bvInFace m b f in
        match u, w with BFace _ x y z, BFace _ x' y' z' => Ok (BFace f (op x x') (op y y') (op z z')) | _, _ => UB end end
    end in ((exists f, liveF m f /\ touches m (elemOfV a) f /\ touches m (elemOfV b) f) ->
      exists c, rest = Ok c /\ onMeshV m c /\ (forall d, change m d c = (change m d a + s * change m d b)%R) /\ (zeroSum a -> zeroSum b -> zeroSum c)) /\
      (~ (exists f, liveF m f /\ touches m (elemOfV a) f /\ touches m (elemOfV b) f) -> rest = Throw)).
  { cbv zeta. destruct (bvSharedEdge_ok _ _ EA EB) as (r & E & K). rewrite E. cbn [bind]. destruct r as [e|].
    - destruct K as (L & Oa & Ob).
      destruct (proj1 (bvInEdge_ok a e A L) Oa) as (x & y & E1 & S1 & Z1). destruct (proj1 (bvInEdge_ok b e B L) Ob) as (x' & y' & E2 & S2 & Z2).
      rewrite E1, E2. cbn [bind]. split.
      + intros _. eexists. split; [reflexivity|]. split; [exact L|]. split; [|rewrite !OP; intros P Q; specialize (Z1 P); specialize (Z2 Q); cbn in *; rewrite ?OP; nra].
        intros d. rewrite <- (S1 d), <- (S2 d). cbn [change]. rewrite !OP. lra.
      + intros N. exfalso. apply N. exists (fa m (2 * e)). destruct (onEdge_touch _ e L Oa) as (? & ?). destruct (onEdge_touch _ e L Ob) as (? & ?). auto.
    - destruct (bvSharedFace_ok _ _ EA EB) as (r & E' & K'). rewrite E'. cbn [bind]. destruct r as [f|].
      + destruct K' as (F & Ta & Tb). destruct (bvInFace_ok a f T A F Ta) as (x & y & z & E1 & S1 & Z1). destruct (bvInFace_ok b f T B F Tb) as (x' & y' & z' & E2 & S2 & Z2).
        rewrite E1, E2. cbn [bind]. split; [intros _|intros N; exfalso; apply N; eauto]. eexists. split; [reflexivity|]. split; [exact F|]. split.
        * intros d. rewrite <- (S1 d), <- (S2 d). cbn [change]. rewrite !OP. lra.
        * intros P Q. specialize (Z1 P). specialize (Z2 Q). cbn in *. rewrite !OP. nra.
      + split; [|reflexivity]. intros (f & F & X & Y). exfalso. apply (K' f); auto. }
  cbv zeta in G. unfold bvCombine. destruct a as [v|e x y|f x y z], b as [w|e' x' y'|f' x' y' z']; try exact G.
  destruct (Z.eqb_spec v w) as [->|N]; [|exact G]. split.
  - intros _. eexists. split; [reflexivity|]. split; auto. split; [intros d; cbn; lra|auto].
  - intros X. exfalso. apply X. destruct (bvInSomeFace_ok (BVertex w) T B) as (f & _ & _ & _ & _ & F & Tf & _). exists f. auto.
Qed.

(** ** the vector between two points *)
Lemma between_ok p q : triangular m -> onMesh m p -> onMesh m q ->
  ((exists f, liveF m f /\ touches m (elemOf p) f /\ touches m (elemOf q) f) ->
   (elemOf p <> elemOf q -> (forall e, liveH m (2 * e) -> ~ (onEdge m (elemOf p) e /\ onEdge m (elemOf q) e)) \/ exists v w, p = PVertex v /\ q = PVertex w) ->
   (forall e t, p <> PEdge e t \/ forall s, q <> PEdge e s) ->
   exists b, bvBetween m p q = Ok b /\ onMeshV m b /\ forall d, change m d b = (valueAt m d q - valueAt m d p)%R) /\
  (~ (exists f, liveF m f /\ touches m (elemOf p) f /\ touches m (elemOf q) f) -> bvBetween m p q = Throw).
Proof.
  intros T A B. assert (EA := proj1 (onMesh_E p) A). assert (EB := proj1 (onMesh_E q) B).
  assert (FaceCase : forall f, liveF m f -> touches m (elemOf p) f -> touches m (elemOf q) f -> exists b,
     (let* qA := inFace m p f in let* qB := inFace m q f in match qA, qB with PFace _ x y z, PFace _ x' y' z' => Ok (BFace f (x' - x) (y' - y) (z' - z)) | _, _ => UB end) = Ok b /\
     onMeshV m b /\ forall d, change m d b = (valueAt m d q - valueAt m d p)%R).
  { intros f F Tp Tq. destruct (proj1 (inFace_ok m V p f T A F) Tp) as (x & y & z & E1 & S1). destruct (proj1 (inFace_ok m V q f T B F) Tq) as (x' & y' & z' & E2 & S2).
    rewrite E1, E2. cbn [bind]. eexists. split; [reflexivity|]. split; [exact F|]. intros d. rewrite <- (S1 d), <- (S2 d). unfold valueAt. cbn [change weights fold_right]. lra. }
  assert (VC : forall v w, p = PVertex v -> q = PVertex w -> forall e, liveH m (2 * e) -> onEdge m (EV v) e -> onEdge m (EV w) e -> v <> w ->
     exists b, (let* qA := inEdge m p e in let* qB := inEdge m q e in match qA, qB with PEdge _ a, PEdge _ b => Ok (BEdge e (b - a) (a - b)) | _, _ => UB end) = Ok b /\
     onMeshV m b /\ forall d, change m d b = (valueAt m d q - valueAt m d p)%R).
  { intros v w -> -> e L (h & Lh & Eh & <-) (h' & Lh' & Eh' & <-) N. assert (N' : ve m (2 * e) <> ve m (tw (2 * e))).
    { destruct (half_cases h e Eh) as [->| ->], (half_cases h' e Eh') as [->| ->]; congruence. }
    assert (L1 := cn_nx _ CN _ L). pose proof (cn_vnx _ CN _ L) as VN. cbn [inEdge]. change (eHe e) with (2 * e).
    rewrite (p_vert m V) by auto. cbn [bind]. rewrite (p_next m V) by auto. cbn [bind]. rewrite (p_vert m V) by auto. cbn [bind]. rewrite VN.
    destruct (half_cases h e Eh) as [->| ->], (half_cases h' e Eh') as [->| ->]; try congruence; rewrite Z.eqb_refl.
    - rewrite (proj2 (Z.eqb_neq (ve m (tw (2 * e))) _)) by congruence. rewrite Z.eqb_refl. cbn [bind]. eexists. split; [reflexivity|]. split; [exact L|].
      intros d. unfold valueAt. cbn [change weights fold_right]. lra.
    - rewrite (proj2 (Z.eqb_neq (ve m (tw (2 * e))) _)) by congruence. rewrite Z.eqb_refl. cbn [bind]. eexists. split; [reflexivity|]. split; [exact L|].
      intros d. unfold valueAt. cbn [change weights fold_right]. lra. }
  destruct (sharedEdge_distinct m V _ _ EA EB) as (r & E & K). destruct (sharedFace_ok m V _ _ EA EB) as (r' & E' & K').
  split.
  - intros SF C1 C2.
    assert (Main : elemOf p <> elemOf q \/ (exists f x y z, p = PFace f x y z) -> exists b,
      (let* e := sharedEdge m (elemOf p) (elemOf q) in
      match e with
      | Some e => let* qA := inEdge m p e in let* qB := inEdge m q e in match qA, qB with PEdge _ a, PEdge _ b => Ok (BEdge e (b - a) (a - b)) | _, _ => UB end
      | None => let* f := sharedFace m (elemOf p) (elemOf q) in
        match f with None => Throw | Some f => let* qA := inFace m p f in let* qB := inFace m q f in
          match qA, qB with PFace _ x y z, PFace _ x' y' z' => Ok (BFace f (x' - x) (y' - y) (z' - z)) | _, _ => UB end end
      end) = Ok b /\ onMeshV m b /\ forall d, change m d b = (valueAt m d q - valueAt m d p)%R).
    { intros W. rewrite E. cbn [bind]. destruct r as [e|].
      - destruct K as (L & Oa & Ob). destruct W as [W|(f & x & y & z & ->)]; [|destruct Oa]. destruct (C1 W) as [X|(v & w & Ep & Eq)].
        + exfalso. apply (X e L). auto.
        + apply (VC v w); auto; subst; auto. cbn [elemOf] in W. congruence.
      - rewrite E'. cbn [bind]. destruct r' as [f|].
        + destruct K' as (F & Tp & Tq). apply FaceCase; auto.
        + destruct SF as (f & F & X). exfalso. apply (K' f); auto. }
    unfold bvBetween. destruct p as [v|e t|f x y z], q as [w|e' t'|f' x' y' z']; try (refine (Main (or_introl _)); discriminate); try (refine (Main (or_intror _)); eauto; fail).
    + destruct (Z.eqb_spec v w) as [->|N]; [|refine (Main (or_introl _)); cbn; congruence]. eexists. split; [reflexivity|]. split; [exact B|]. intros d. cbn. lra.
    + refine (Main (or_introl _)). cbn. intros [= ->]. destruct (C2 e' t) as [X|X]; [congruence|apply (X t'); reflexivity].
  - intros N. assert (R : sharedEdge m (elemOf p) (elemOf q) = Ok None).
    { rewrite E. f_equal. destruct r as [e|]; auto. exfalso. apply N. destruct K as (L & Oa & Ob). exists (fa m (2 * e)).
      destruct (onEdge_touch _ e L Oa) as (? & ?). destruct (onEdge_touch _ e L Ob) as (? & ?). auto. }
    assert (R' : sharedFace m (elemOf p) (elemOf q) = Ok None).
    { rewrite E'. f_equal. destruct r' as [f|]; auto. exfalso. apply N. exists f. tauto. }
    unfold bvBetween. rewrite R. cbn [bind]. rewrite R'. cbn [bind]. destruct p as [v|e t|f x y z], q as [w|e' t'|f' x' y' z']; auto.
    destruct (Z.eqb_spec v w) as [->|N']; auto. exfalso. apply N. destruct (bvInSomeFace_ok (BVertex w) T B) as (f & _ & _ & _ & _ & F & Tf & _). exists f. auto.
Qed.
(** on one edge the vector is reversed *)
Lemma between_reversed e s t : liveH m (2 * e) ->
  exists b, bvBetween m (PEdge e s) (PEdge e t) = Ok b /\ forall d, change m d b = (valueAt m d (PEdge e s) - valueAt m d (PEdge e t))%R.
Proof.
  intros L. unfold bvBetween. cbn [elemOf sharedEdge bind inEdge]. rewrite !Z.eqb_refl. cbn [bind inEdge]. rewrite ?Z.eqb_refl. cbn [bind].
  eexists. split; [reflexivity|]. intros d. unfold valueAt. cbn [change weights fold_right]. lra.
Qed.

(** ** the vector along a halfedge *)
Lemma bvHalfedge_ok h f : triangular m -> liveH m h -> liveF m f -> touches m (EE (edge h)) f ->
  exists b, bvHalfedge m h f = Ok b /\ elemOfV b = EF f /\ zeroSum b /\ forall d, change m d b = (d (ve m (tw h)) - d (ve m h))%R.
Proof.
  intros T L F X. destruct (tri_facts f T F) as (La & Lb & Lc & Fa & Fb & Fc & N3 & V0 & V1 & V2).
  unfold bvHalfedge. rewrite (tri_list m V) by auto. cbn [bind].
  assert (Hn := cn_nx _ CN _ L). pose proof (cn_vnx _ CN _ L) as Vh.
  assert (Main : forall k i, liveH m k -> edge k = edge h -> (i < 3)%nat -> let c := setComp (setComp (mk3 0 0 0) ((i + 1) mod 3) 1) i (-1) in
     (forall d, (qx c * d (ve m (fh m f)) + qy c * d (ve m (nx m (fh m f))) + qz c * d (ve m (nx m (nx m (fh m f)))) = d (ve m (tw k)) - d (ve m k))%R) ->
      exists b, (let* gt := vertexOf m k in let* ht := vertexOf m h in let* gn := next m k in let* gp := vertexOf m gn in let* hn := next m h in let* hp := vertexOf m hn in
       let sign := if (gt =? ht) && (gp =? hp) then 1%R else (-1)%R in
       if (i <? 3)%nat then let c := setComp (setComp (mk3 0 0 0) ((i + 1) mod 3) 1) i (-1) in Ok (BFace f (qx c * sign) (qy c * sign) (qz c * sign))%R else UB) = Ok b /\ elemOfV b = EF f /\ zeroSum b /\ forall d, change m d b = (d (ve m (tw h)) - d (ve m h))%R).
  { intros k i Lk Ek Hi c Q. rewrite (p_vert m V) by auto. cbn [bind]. rewrite (p_vert m V) by auto. cbn [bind]. rewrite (p_next m V) by auto. cbn [bind].
    assert (Kn := cn_nx _ CN _ Lk). pose proof (cn_vnx _ CN _ Lk) as Vk. rewrite (p_vert m V) by auto. cbn [bind]. rewrite (p_next m V) by auto. cbn [bind]. rewrite (p_vert m V) by auto. cbn [bind].
    rewrite (proj2 (Nat.ltb_lt i 3) Hi). cbv zeta. change (setComp (setComp (mk3 0 0 0) ((i + 1) mod 3) 1) i (-1)) with c. eexists. split; [reflexivity|]. split; [reflexivity|].
    split; [cbn [zeroSum]; assert (S0 : (qx c + qy c + qz c = 0)%R) by (subst c; do 3 (destruct i as [|i]; [cbn; lra|]); lia); destruct (_ && _); lra|].
    intros d. specialize (Q d). rewrite Vk, Vh. cbn [change].
    assert (KK : k = h \/ k = tw h) by (apply edge_eq; auto). destruct (Z.eqb_spec (ve m k) (ve m h)) as [U|U]; [destruct (Z.eqb_spec (ve m (tw k)) (ve m (tw h))) as [W|W]|]; cbn [andb].
    - rewrite U, W in Q. lra.
    - destruct KK as [-> | ->]; [congruence|]. rewrite tw_tw in *. rewrite U in *. lra.
    - destruct KK as [-> | ->]; [congruence|]. rewrite tw_tw in *. lra. }
  assert (Q0 := Main (fh m f) 0%nat La). assert (Q1 := Main (nx m (fh m f)) 1%nat Lb). assert (Q2 := Main (nx m (nx m (fh m f))) 2%nat Lc). clear Main. cbn [firstOnEdge].
  destruct (Z.eqb_spec (edge (fh m f)) (edge h)) as [E0|E0]; [apply Q0; [exact E0|lia|]; intros d; cbn; rewrite V0; lra|].
  destruct (Z.eqb_spec (edge (nx m (fh m f))) (edge h)) as [E1|E1]; [apply Q1; [exact E1|lia|]; intros d; cbn; rewrite V1; lra|].
  destruct (Z.eqb_spec (edge (nx m (nx m (fh m f)))) (edge h)) as [E2|E2]; [apply Q2; [exact E2|lia|]; intros d; cbn; rewrite V2; lra|].
  exfalso. destruct X as (g & Lg & Fg & Eg). destruct (tri_touch m V f g T F Lg Fg) as [Y|[Y|Y]]; subst g; congruence.
Qed.

(** ** lengths and angles *)
Lemma sides_ok len f : triangular m -> liveF m f -> sides m len f = Ok (mk3 (len (edge (fh m f))) (len (edge (nx m (fh m f)))) (len (edge (nx m (nx m (fh m f)))))).
Proof.
  intros T F. destruct (tri_facts f T F) as (La & Lb & Lc & _). unfold sides. rewrite (p_fHe m V) by (left; auto). cbn [bind].
  rewrite (p_next m V) by auto. cbn [bind]. rewrite (p_next m V) by auto. reflexivity.
Qed.
Lemma lengths3_sq len P f : triangular m -> liveF m f -> lengths3 m len P f ->
  let a := fh m f in let b := nx m a in let c := nx m b in
  let A := P (ve m a) in let B := P (ve m b) in let C := P (ve m c) in
  let sq u v := ((qx u - qx v) * (qx u - qx v) + (qy u - qy v) * (qy u - qy v) + (qz u - qz v) * (qz u - qz v))%R in
  (len (edge a) * len (edge a) = sq A B /\ len (edge b) * len (edge b) = sq B C /\ len (edge c) * len (edge c) = sq C A)%R.
Proof.
  intros T F H. cbv zeta. destruct (tri_facts f T F) as (La & Lb & Lc & Fa & Fb & Fc & N3 & V0 & V1 & V2).
  rewrite (H _ La Fa), (H _ Lb Fb), (H _ Lc Fc), V0, V1, V2. rewrite !dist3_sq. auto.
Qed.
Lemma dot_ok len u v : triangular m -> onMeshV m u -> onMeshV m v -> zeroSum u -> zeroSum v ->
  ((exists f, liveF m f /\ touches m (elemOfV u) f /\ touches m (elemOfV v) f) -> exists r f, bvDot m len u v = Ok r /\ liveF m f /\ touches m (elemOfV u) f /\ touches m (elemOfV v) f /\
    forall P, lengths3 m len P f -> r = inner3 (embed3 m P u) (embed3 m P v)) /\
  (~ (exists f, liveF m f /\ touches m (elemOfV u) f /\ touches m (elemOfV v) f) -> bvDot m len u v = Throw).
Proof.
  intros T A B ZA ZB. assert (EA := proj1 (onMeshV_E u) A). assert (EB := proj1 (onMeshV_E v) B). unfold bvDot.
  destruct (bvSharedFace_ok _ _ EA EB) as (r & E & K). rewrite E. cbn [bind]. destruct r as [f|].
  - destruct K as (F & Ta & Tb). split; [intros _|intros N; exfalso; apply N; eauto].
    destruct (bvInFace_ok u f T A F Ta) as (x & y & z & E1 & S1 & Z1). destruct (bvInFace_ok v f T B F Tb) as (x' & y' & z' & E2 & S2 & Z2). specialize (Z1 ZA). specialize (Z2 ZB).
    rewrite E1, E2. cbn [bind]. rewrite (sides_ok len f T F). cbn [bind qx qy qz]. do 2 eexists. split; [reflexivity|]. split; [exact F|]. split; auto. split; auto.
    intros P LP. destruct (lengths3_sq len P f T F LP) as (Qa & Qb & Qc). unfold inner3, embed3. cbn [qx qy qz]. rewrite <- !(S1 _), <- !(S2 _). cbn [change zeroSum] in *.
    rewrite !Rmult_assoc, Qa, Qb, Qc. assert (x = - y - z)%R as -> by lra. assert (x' = - y' - z')%R as -> by lra. field.
  - split; [|reflexivity]. intros (f & F & X). exfalso. apply (K f); auto.
Qed.
Lemma norm2_ok len b : triangular m -> onMeshV m b -> zeroSum b -> exists r f, bvNorm2 m len b = Ok r /\ bvNorm m len b = Ok (sqrt r) /\ liveF m f /\ touches m (elemOfV b) f /\
    forall P, lengths3 m len P f -> r = inner3 (embed3 m P b) (embed3 m P b).
Proof.
  intros T A ZA. destruct b as [v|e x y|f x y z]; cbn [onMeshV elemOfV] in *.
  - destruct (bvInSomeFace_ok (BVertex v) T A) as (f & _ & _ & _ & _ & F & Tf & _). exists 0%R, f. split; [reflexivity|]. split; [cbn; rewrite sqrt_0; reflexivity|]. split; auto. split; auto.
    intros P _. unfold inner3, embed3. cbn. lra.
  - cbn [bvNorm2 bvNorm bind]. exists (- len e * len e * x * y)%R, (fa m (2 * e)). split; [reflexivity|]. split; [reflexivity|]. split; [apply half_face; auto|]. split; [exists (2 * e); auto using edge_half|].
    intros P LP. specialize (LP (2 * e) A eq_refl). rewrite edge_half in LP. unfold inner3, embed3. cbn [qx qy qz change zeroSum] in *.
    assert (x = - y)%R as -> by lra. replace (- len e * len e * - y * y)%R with (len e * len e * (y * y))%R by ring. rewrite LP, dist3_sq. ring.
  - cbn [bvNorm2 bvNorm bind]. rewrite (sides_ok len f T A). cbn [bind qx qy qz]. do 2 eexists. split; [reflexivity|]. split; [reflexivity|]. split; [exact A|]. split; [reflexivity|].
    intros P LP. destruct (lengths3_sq len P f T A LP) as (Qa & Qb & Qc). unfold inner3, embed3. cbn [qx qy qz]. cbn [change zeroSum] in *.
    rewrite Qa, Qb, Qc. assert (x = - y - z)%R as -> by lra. ring.
Qed.

(** ** rotation *)
Lemma lengths2_sq len P f : triangular m -> liveF m f -> lengths2 m len P f ->
  let a := fh m f in let b := nx m a in let c := nx m b in
  let A := P (ve m a) in let B := P (ve m b) in let C := P (ve m c) in
  len (edge a) = dist2 A B /\ len (edge b) = dist2 B C /\ len (edge c) = dist2 C A.
Proof.
  intros T F H. cbv zeta. destruct (tri_facts f T F) as (La & Lb & Lc & Fa & Fb & Fc & N3 & V0 & V1 & V2).
  rewrite (H _ La Fa), (H _ Lb Fb), (H _ Lc Fc), V0, V1, V2. auto.
Qed.
Lemma heron_area A B C : let s := (1/2 * (dist2 A B + dist2 B C + dist2 C A))%R in
  (s * (s - dist2 A B) * (s - dist2 B C) * (s - dist2 C A) = (area2 A B C / 2) * (area2 A B C / 2))%R.
Proof.
  cbv zeta. pose proof (heron (dist2 A B) (dist2 B C) (dist2 C A)) as H. cbv zeta in H. rewrite !dist2_sq in H.
  replace (1/2 * (dist2 A B + dist2 B C + dist2 C A))%R with ((dist2 A B + dist2 B C + dist2 C A) / 2)%R by field.
  unfold area2. lra.
Qed.
Lemma rot90_coords A B C u v w : (0 < area2 A B C)%R -> (u + v + w = 0)%R ->
  let l := mk3 (dist2 A B) (dist2 B C) (dist2 C A) in
  let ai := (qx l * qx l - qy l * qy l + qz l * qz l)%R in
  let aj := (qy l * qy l - qz l * qz l + qx l * qx l)%R in
  let ak := (qz l * qz l - qx l * qx l + qy l * qy l)%R in
  let T := (2 * area2 A B C)%R in
  let x := ((ak * w - aj * v) / T)%R in let y := ((ai * u - ak * w) / T)%R in let z := ((aj * v - ai * u) / T)%R in
  (x * px A + y * px B + z * px C = - (u * py A + v * py B + w * py C) /\ x * py A + y * py B + z * py C = u * px A + v * px B + w * px C)%R.
Proof.
  intros H S. cbv zeta. cbn [qx qy qz]. rewrite !dist2_sq. assert (u = - v - w)%R as -> by lra. unfold area2 in *. split; field; lra.
Qed.
Lemma faceRotate90_ok len f u v w : triangular m -> liveF m f -> (u + v + w = 0)%R ->
  exists x y z, faceRotate90 m len (BFace f u v w) = Ok (BFace f x y z) /\ (x + y + z = 0)%R /\
    forall P, lengths2 m len P f -> ccw m P f -> embed2 m P (BFace f x y z) = turn (PI / 2) (embed2 m P (BFace f u v w)).
Proof.
  intros T F S. unfold faceRotate90. rewrite (sides_ok len f T F). cbn [bind]. do 3 eexists. split; [reflexivity|]. split; [unfold div3; cbn [qx qy qz]; ring|].
  intros P LP CP. destruct (lengths2_sq len P f T F LP) as (Qa & Qb & Qc). cbn [qx qy qz]. rewrite Qa, Qb, Qc.
  rewrite heron_area. rewrite sqrt_square by (unfold ccw in CP; lra).
  replace (4 * (area2 (P (ve m (fh m f))) (P (ve m (nx m (fh m f)))) (P (ve m (nx m (nx m (fh m f))))) / 2))%R with (2 * area2 (P (ve m (fh m f))) (P (ve m (nx m (fh m f)))) (P (ve m (nx m (nx m (fh m f))))))%R by field.
  destruct (rot90_coords _ _ _ u v w CP S) as (X & Y). cbv zeta in X, Y. cbn [qx qy qz] in X, Y.
  unfold embed2, turn. rewrite cos_PI2, sin_PI2. cbn [change px py]. unfold div3. cbn [qx qy qz].
  unfold Rdiv in *. rewrite !Rmult_1_l. f_equal; lra.
Qed.
Lemma faceRotate_ok len f u v w angle : triangular m -> liveF m f -> (u + v + w = 0)%R ->
  exists x y z, faceRotate m len (BFace f u v w) angle = Ok (BFace f x y z) /\ (x + y + z = 0)%R /\
    forall P, lengths2 m len P f -> ccw m P f -> embed2 m P (BFace f x y z) = turn angle (embed2 m P (BFace f u v w)).
Proof.
  intros T F S. unfold faceRotate. rewrite (sides_ok len f T F). cbn [bind]. cbv zeta. do 3 eexists. split; [reflexivity|].
  set (la := len (edge (fh m f))). set (lb := len (edge (nx m (fh m f)))). set (lc := len (edge (nx m (nx m (fh m f))))). cbn [qx qy qz].
  set (A2 := (- (la - lb - lc) * (la + lb - lc) * (la - lb + lc) * (la + lb + lc) / 16)%R). unfold div3. cbn [qx qy qz].
  split. { assert (u = - v - w)%R as -> by lra. ring. }
  intros P LP CP. destruct (lengths2_sq len P f T F LP) as (Qa & Qb & Qc). change (len (edge (fh m f))) with la in Qa. change (len (edge (nx m (fh m f)))) with lb in Qb. change (len (edge (nx m (nx m (fh m f))))) with lc in Qc.
  assert (HA : A2 = ((area2 (P (ve m (fh m f))) (P (ve m (nx m (fh m f)))) (P (ve m (nx m (nx m (fh m f))))) / 2) * (area2 (P (ve m (fh m f))) (P (ve m (nx m (fh m f)))) (P (ve m (nx m (nx m (fh m f))))) / 2))%R).
  { rewrite <- heron_area. unfold A2. rewrite Qa, Qb, Qc. field. }
  rewrite HA. unfold ccw in CP. rewrite sqrt_square by lra.
  destruct (rot90_coords _ _ _ u v w CP S) as (X & Y). cbv zeta in X, Y. cbn [qx qy qz] in X, Y. rewrite <- Qa, <- Qb, <- Qc in X, Y.
  unfold embed2, turn. cbn [change px py]. set (K := area2 _ _ _) in *. set (c := cos angle). set (s := sin angle).
  generalize dependent la. generalize dependent lb. generalize dependent lc. intros lc Qc lb Qb la Qa A2 HA X Y. clear HA A2 Qa Qb Qc LP.
  set (pa := px (P (ve m (fh m f)))) in *. set (pb := px (P (ve m (nx m (fh m f))))) in *. set (pc := px (P (ve m (nx m (nx m (fh m f)))))) in *.
  set (ya := py (P (ve m (fh m f)))) in *. set (yb := py (P (ve m (nx m (fh m f))))) in *. set (yc := py (P (ve m (nx m (nx m (fh m f)))))) in *.
  f_equal.
  - assert (R1 : (c * (u * pa + v * pb + w * pc) - s * (u * ya + v * yb + w * yc) = c * (u * pa + v * pb + w * pc) + s * - (u * ya + v * yb + w * yc))%R) by ring.
    rewrite R1, <- X. assert (u = - v - w)%R as -> by lra. field. lra.
  - rewrite <- Y. assert (u = - v - w)%R as -> by lra. field. lra.
Qed.
(** the halfedge an edge vector runs along *)
Lemma int_face h : liveH m h -> negb (fFill m <=? fa m h) = true -> liveF m (fa m h).
Proof. intros L E. apply live_face_of; auto. unfold ext. lia. Qed.
Lemma ext_twin_int e h : liveH m (2 * e) -> edge h = e -> fFill m <=? fa m h = true -> tw h = 2 * e.
Proof.
  intros L E X. destruct (half_cases h e E) as [->| ->]; [|apply tw_tw]. exfalso. apply (cn_ebd _ CN _ L); [lia|]. unfold ext. lia.
Qed.
Lemma touch_half h e : liveH m h -> edge h = e -> touches m (EE e) (fa m h).
Proof. intros L E. exists h. auto. Qed.
Lemma half_ext e : liveH m (2 * e) -> fFill m <=? fa m (2 * e) = false.
Proof. intros L. pose proof (cn_ebd _ CN _ L ltac:(lia)) as X. unfold ext in X. lia. Qed.
Lemma bvRotate90_ok len b : triangular m -> onMeshV m b -> zeroSum b ->
  exists r f, bvRotate90 m len b = Ok r /\ liveF m f /\ touches m (elemOfV b) f /\ onMeshV m r /\ touches m (elemOfV r) f /\ zeroSum r /\
    (forall e x y, b = BEdge e x y -> elemOfV r = EF f /\ let h := if Rlt_dec x 0 then 2 * e else tw (2 * e) in ~ ext m h -> f = fa m h) /\
    forall P, lengths2 m len P f -> ccw m P f -> embed2 m P r = turn (PI / 2) (embed2 m P b).
Proof.
  intros T A Z0. destruct b as [v|e x y|f x y z]; cbn [bvRotate90 onMeshV elemOfV] in *.
  - destruct (bvInSomeFace_ok (BVertex v) T A) as (f & _ & _ & _ & _ & F & Tf & _). exists (BVertex v), f. split; [reflexivity|]. split; auto. split; auto. split; auto. split; auto. split; auto. split; [discriminate|].
    intros P _ _. unfold embed2, turn. cbn. f_equal; lra.
  - change (eHe e) with (2 * e). cbv zeta.
    set (h := if Rlt_dec x 0 then 2 * e else tw (2 * e)).
    assert (Eh : edge h = e) by (unfold h; destruct (Rlt_dec x 0); auto using edge_half, edge_half').
    assert (Lh : liveH m h) by (unfold h; destruct (Rlt_dec x 0); auto; apply (cn_tw _ CN); auto).
    rewrite isInterior_ok by auto. cbn [bind].
    assert (G : forall g, edge g = e -> liveH m g -> ~ ext m g -> (~ ext m h -> g = h) -> exists r f, (let* f := faceOf m g in let* w := bvInFace m (BEdge e x y) f in faceRotate90 m len w) = Ok r /\ liveF m f /\ touches m (EE e) f /\
       onMeshV m r /\ touches m (elemOfV r) f /\ zeroSum r /\ (forall e' x' y', BEdge e x y = BEdge e' x' y' -> elemOfV r = EF f /\ let h := if Rlt_dec x' 0 then 2 * e' else tw (2 * e') in ~ ext m h -> f = fa m h) /\
       forall P, lengths2 m len P f -> ccw m P f -> embed2 m P r = turn (PI / 2) (embed2 m P (BEdge e x y))).
    { intros g Eg Lg Xg Hg. rewrite (p_face m V) by auto. cbn [bind]. pose proof (live_face_of m V g Lg Xg) as F. pose proof (touch_half g e Lg Eg) as Tg.
      destruct (bvInFace_ok (BEdge e x y) _ T A F Tg) as (a & b & c & E1 & S1 & Z1). rewrite E1. cbn [bind]. specialize (Z1 Z0).
      destruct (faceRotate90_ok len _ a b c T F Z1) as (a' & b' & c' & E2 & S2 & K). rewrite E2. do 2 eexists. split; [reflexivity|]. split; [exact F|]. split; auto. split; [exact F|]. split; [reflexivity|]. split; [exact S2|].
      split; [|intros P LP CP; rewrite (K P LP CP); unfold embed2; rewrite !(S1 _); reflexivity].
      intros e' x' y' [= <- <- <-]. split; [reflexivity|]. cbv zeta. fold h. intros X. rewrite (Hg X). reflexivity. }
    destruct (fFill m <=? fa m h) eqn:X; cbn [negb].
    + pose proof (ext_twin_int e h A Eh X) as Y. rewrite Y. apply G; auto using edge_half. pose proof (half_ext e A) as W. unfold ext. lia. intros N. exfalso. apply N. unfold ext. lia.
    + apply G; auto. unfold ext. lia.
  - destruct (faceRotate90_ok len f x y z T A Z0) as (a' & b' & c' & E2 & S2 & K). rewrite E2. do 2 eexists. split; [reflexivity|]. split; [exact A|]. split; [reflexivity|]. split; [exact A|]. split; [reflexivity|]. split; [exact S2|]. split; [discriminate|auto].
Qed.
Lemma turn_period a k v : turn (a + 2 * PI * IZR k) v = turn a v.
Proof.
  unfold turn. replace (2 * PI * IZR k)%R with (2 * IZR k * PI)%R by ring.
  assert (C : forall n t, (cos (t + 2 * INR n * PI) = cos t /\ sin (t + 2 * INR n * PI) = sin t)%R) by (intros; split; [apply cos_period|apply sin_period]).
  assert (G : (cos (a + 2 * IZR k * PI) = cos a /\ sin (a + 2 * IZR k * PI) = sin a)%R).
  { destruct (Z_le_gt_dec 0 k) as [H|H].
    - rewrite <- (Z2Nat.id k H), <- INR_IZR_INZ. apply C.
    - pose proof (C (Z.to_nat (- k)) (a + 2 * IZR k * PI)%R) as Q. rewrite INR_IZR_INZ, Z2Nat.id in Q by lia.
      replace (a + 2 * IZR k * PI + 2 * IZR (- k) * PI)%R with a in Q by (rewrite opp_IZR; ring). destruct Q; auto. }
  destruct G as (-> & ->). reflexivity.
Qed.
Lemma bvRotate_ok len b angle : triangular m -> onMeshV m b -> zeroSum b ->
  exists r f, bvRotate m len b angle = Ok r /\ liveF m f /\ touches m (elemOfV b) f /\ onMeshV m r /\ touches m (elemOfV r) f /\ zeroSum r /\
    (forall e x y, b = BEdge e x y -> let h := if Rlt_dec x 0 then 2 * e else tw (2 * e) in
       ((regularizeAngle angle < PI)%R -> elemOfV r = EF f /\ (~ ext m h -> f = fa m h)) /\ ((regularizeAngle angle > PI)%R -> elemOfV r = EF f /\ (~ ext m (tw h) -> f = fa m (tw h)))) /\
    forall P, lengths2 m len P f -> ccw m P f -> embed2 m P r = turn angle (embed2 m P b).
Proof.
  intros T A Z0. destruct b as [v|e x y|f x y z]; cbn [bvRotate onMeshV elemOfV] in *.
  - destruct (bvInSomeFace_ok (BVertex v) T A) as (f & _ & _ & _ & _ & F & Tf & _). exists (BVertex v), f. split; [reflexivity|]. split; auto. split; auto. split; auto. split; auto. split; auto. split; [discriminate|].
    intros P _ _. unfold embed2, turn. cbn. f_equal; lra.
  - change (eHe e) with (2 * e). cbv zeta. destruct (regularize_ok angle) as ((R0 & R1) & k & Rk). pose proof PI_RGT_0 as PP.
    destruct (Req_EM_T (regularizeAngle angle) PI) as [EP|NP].
    { exists (BEdge e (- x) (- y)), (fa m (2 * e)). split; [reflexivity|]. split; [apply half_face; auto|]. split; [exists (2 * e); auto using edge_half|]. split; [exact A|].
      split; [exists (2 * e); auto using edge_half|]. split; [cbn in *; lra|]. split; [intros; split; intros; lra|]. intros P _ _. rewrite Rk, turn_period, EP. unfold turn. rewrite cos_PI, sin_PI.
      unfold embed2. cbn [change px py]. f_equal; ring. }
    destruct (Req_EM_T (regularizeAngle angle) (- PI)) as [EM|NM]; [exfalso; lra|].
    set (h := if Rlt_dec x 0 then 2 * e else tw (2 * e)).
    assert (Eh : edge h = e) by (unfold h; destruct (Rlt_dec x 0); auto using edge_half, edge_half').
    assert (Lh : liveH m h) by (unfold h; destruct (Rlt_dec x 0); auto; apply (cn_tw _ CN); auto).
    rewrite isInterior_ok by auto. cbn [bind]. rewrite eIsBoundary_ok by auto. cbn [bind]. change (eHe e) with (2 * e).
    assert (G : forall g, edge g = e -> liveH m g -> ~ ext m g -> ((regularizeAngle angle < PI)%R -> ~ ext m h -> g = h) -> ((regularizeAngle angle > PI)%R -> ~ ext m (tw h) -> g = tw h) ->
       exists r f, (let* f := faceOf m g in let* w := bvInFace m (BEdge e x y) f in faceRotate m len w angle) = Ok r /\ liveF m f /\ touches m (EE e) f /\
       onMeshV m r /\ touches m (elemOfV r) f /\ zeroSum r /\ (forall e' x' y', BEdge e x y = BEdge e' x' y' -> let h := if Rlt_dec x' 0 then 2 * e' else tw (2 * e') in
         ((regularizeAngle angle < PI)%R -> elemOfV r = EF f /\ (~ ext m h -> f = fa m h)) /\ ((regularizeAngle angle > PI)%R -> elemOfV r = EF f /\ (~ ext m (tw h) -> f = fa m (tw h)))) /\
       forall P, lengths2 m len P f -> ccw m P f -> embed2 m P r = turn angle (embed2 m P (BEdge e x y))).
    { intros g Eg Lg Xg Hg Hg'. rewrite (p_face m V) by auto. cbn [bind]. pose proof (live_face_of m V g Lg Xg) as F. pose proof (touch_half g e Lg Eg) as Tg.
      destruct (bvInFace_ok (BEdge e x y) _ T A F Tg) as (a & b & c & E1 & S1 & Z1). rewrite E1. cbn [bind]. specialize (Z1 Z0).
      destruct (faceRotate_ok len _ a b c angle T F Z1) as (a' & b' & c' & E2 & S2 & K). rewrite E2. do 2 eexists. split; [reflexivity|]. split; [exact F|]. split; auto. split; [exact F|]. split; [reflexivity|]. split; [exact S2|].
      split; [|intros P LP CP; rewrite (K P LP CP); unfold embed2; rewrite !(S1 _); reflexivity].
      intros e' x' y' [= <- <- <-]. cbv zeta. fold h. split; intros X; (split; [reflexivity|]); intros N; [rewrite (Hg X N)|rewrite (Hg' X N)]; reflexivity. }
    pose proof (half_ext e A) as W.
    assert (TH : tw h = 2 * e \/ h = 2 * e) by (destruct (half_cases h e Eh) as [Q|Q]; [auto|left; rewrite Q; apply tw_tw]).
    assert (Lt : liveH m (tw h)) by (apply (cn_tw _ CN); auto). assert (Et : edge (tw h) = e) by (rewrite tw_edge; auto).
    destruct (fFill m <=? fa m h) eqn:X; cbn [negb andb].
    + pose proof (ext_twin_int e h A Eh X) as Y. destruct (Rlt_dec (regularizeAngle angle) PI) as [Lp|Lp].
      * apply G; auto using edge_half; [unfold ext; lia|]. intros _ N. exfalso. apply N. unfold ext. lia.
      * rewrite Bool.andb_false_r. cbn [andb]. destruct (Rgt_dec (regularizeAngle angle) PI) as [Gp|Gp]; [|exfalso; lra]. apply G; auto; [rewrite Y; unfold ext; lia|]. intros; lra.
    + rewrite Bool.andb_true_r. destruct (Rgt_dec (regularizeAngle angle) PI) as [Gp|Gp].
      * rewrite Bool.andb_true_r. destruct (fFill m <=? fa m (tw (2 * e))) eqn:B.
        -- apply G; auto using edge_half; [unfold ext; lia|intros; lra|]. intros _ N. destruct TH as [Q|Q]; [auto|]. exfalso. apply N. rewrite Q. unfold ext. lia.
        -- apply G; auto; [|intros; lra]. destruct TH as [Q|Q]; rewrite Q; unfold ext; lia.
      * rewrite Bool.andb_false_r. apply G; auto; [unfold ext; lia|]. intros; lra.
  - destruct (faceRotate_ok len f x y z angle T A Z0) as (a' & b' & c' & E2 & S2 & K). rewrite E2. do 2 eexists. split; [reflexivity|]. split; [exact A|]. split; [reflexivity|]. split; [exact A|]. split; [reflexivity|]. split; [exact S2|]. split; [discriminate|auto].
Qed.
End P.
