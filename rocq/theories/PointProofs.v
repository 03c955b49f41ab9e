(** Proofs about PointModel.v *)
From Verif Require Import Base MeshModel MeshSpec MeshBase MeshExec MeshOrbit MeshFlip MeshOpSpec PointModel PointSpec.
From Coq Require Import Reals Lra.
Open Scope Z_scope.

Section P.
Variable m : mesh.
Hypothesis V : Valid m.
Let CN := va_cn _ V.

Lemma p_next h : liveH m h -> next m h = Ok (nx m h).
Proof. intros H. apply next_ok. pose proof (liveH_bnd m V h H). lia. Qed.
Lemma p_vert h : liveH m h -> vertexOf m h = Ok (ve m h).
Proof. intros H. apply vertexOf_ok. pose proof (liveH_bnd m V h H). lia. Qed.
Lemma p_face h : liveH m h -> faceOf m h = Ok (fa m h).
Proof. intros H. apply faceOf_ok. pose proof (liveH_bnd m V h H). lia. Qed.
Lemma p_vHe v : liveV m v -> vHe m v = Ok (vh m v).
Proof. intros H. apply vHe_ok. pose proof (liveV_bnd m V v H). lia. Qed.
Lemma p_fHe f : liveFL m f -> fHe m f = Ok (fh m f).
Proof. intros H. apply fHe_ok. pose proof (liveFL_bnd m V f H). lia. Qed.
Lemma live_face_of h : liveH m h -> ~ ext m h -> liveF m (fa m h).
Proof.
  intros H N. destruct (cn_fa _ CN h H) as [L|L]; auto. exfalso. apply N. unfold ext. destruct L as (L & _).
  pose proof (st_f _ (va_st _ V)). lia.
Qed.
Lemma liveF_not_ext h : liveH m h -> liveF m (fa m h) -> ~ ext m h.
Proof. intros H (L & _). unfold ext. lia. Qed.
(** v.halfedge() is interior *)
Lemma vh_interior v : liveV m v -> ~ ext m (vh m v).
Proof.
  intros Hv E. destruct (cn_vh _ CN v Hv) as (L & Ev).
  destruct (prev_ok m V _ L) as (p & Lp & Np & Fp & _).
  assert (Ep : ext m p) by (unfold ext in *; rewrite Fp; exact E).
  assert (L2 : liveH m (tw p)) by (apply CN; auto).
  assert (X : vh m (ve m (tw p)) = tw p) by (apply (cn_vbd _ CN); auto; rewrite tw_tw; exact Ep).
  assert (Y : ve m (tw p) = v) by (rewrite <- (cn_vnx _ CN p Lp), Np; exact Ev).
  rewrite Y in X. rewrite X in E.
  assert (Z1 : p mod 2 = 0 \/ p mod 2 = 1) by lia. destruct Z1 as [Z1|Z1].
  - exact (cn_ebd _ CN p Lp Z1 Ep).
  - apply (cn_ebd _ CN (tw p) L2); auto. rewrite tw_mod. lia.
Qed.
Lemma tri_three h g : triangular m -> liveH m h -> ~ ext m h -> liveH m g -> fa m g = fa m h -> g = h \/ g = nx m h \/ g = nx m (nx m h).
Proof.
  intros T Lh E Lg F. destruct (T h Lh E) as (_ & N3 & _).
  destruct (cn_forb _ CN h g Lh Lg (eq_sym F)) as (n & Hn). subst g.
  assert (forall k, Nat.iter k (nx m) h = h \/ Nat.iter k (nx m) h = nx m h \/ Nat.iter k (nx m) h = nx m (nx m h)) as X; [|apply X].
  induction k; simpl; [auto|]. destruct IHk as [IH|[IH|IH]]; rewrite IH; [auto|auto|]. rewrite N3. auto.
Qed.
Lemma not_ext_nx h : liveH m h -> ~ ext m h -> ~ ext m (nx m h).
Proof. intros L E X. apply E. unfold ext in *. rewrite (cn_fnx _ CN h L) in X. exact X. Qed.

Lemma interpolate_ok data p : onMesh m p -> interpolate m data p = Ok (valueAt m data p).
Proof.
  intros H. destruct p as [v|e t|f x y z]; cbn [interpolate onMesh] in *.
  - unfold valueAt. cbn. f_equal. lra.
  - change (eHe e) with (2 * e). rewrite p_vert by auto. cbn [bind]. rewrite p_vert by (apply CN; auto). cbn [bind].
    unfold valueAt. cbn [weights fold_right]. f_equal. lra.
  - assert (F : liveFL m f) by (left; auto). rewrite p_fHe by auto. cbn [bind]. destruct (cn_fh _ CN f F) as (L & _).
    assert (L1 := cn_nx _ CN _ L). assert (L2 := cn_nx _ CN _ L1).
    rewrite p_vert by auto. cbn [bind]. rewrite p_next by auto. cbn [bind]. rewrite p_vert by auto. cbn [bind].
    rewrite p_next by auto. cbn [bind]. rewrite p_vert by auto. cbn [bind]. unfold valueAt. cbn [weights fold_right]. f_equal. lra.
Qed.

Lemma pointOnHalfedge_ok h t : liveH m h -> onMesh m (pointOnHalfedge h t) /\
  forall data, valueAt m data (pointOnHalfedge h t) = ((1 - t) * data (ve m h) + t * data (ve m (tw h)))%R.
Proof.
  intros L. unfold pointOnHalfedge. cbn [onMesh]. assert (X : h = 2 * edge h \/ tw h = 2 * edge h).
  { unfold edge, tw. destruct (Z.even h) eqn:E. left. rewrite Z.even_spec in E. destruct E. lia. right.
    pose proof (Z.negb_even h) as O. rewrite E in O. symmetry in O. apply Z.odd_spec in O. destruct O. lia. }
  split. destruct X as [<-|<-]; auto. apply CN; auto.
  intros data. unfold valueAt. cbn [weights fold_right]. unfold eHe. destruct (Z.eqb_spec h (2 * edge h)) as [E|E].
  - rewrite <- E. lra.
  - destruct X as [X|X]; [contradiction|]. rewrite <- X, tw_tw. lra.
Qed.

(** ** inSomeFace *)
Lemma inSomeFace_ok p : triangular m -> onMesh m p ->
  exists f x y z, inSomeFace m p = Ok (PFace f x y z) /\ liveF m f /\ touches m (elemOf p) f /\ samePoint m (PFace f x y z) p /\
    (match p with PVertex _ => True | PEdge _ t => (0 <= t <= 1)%R | PFace _ a b c => (0 <= a /\ 0 <= b /\ 0 <= c)%R end -> (0 <= x /\ 0 <= y /\ 0 <= z)%R).
Proof.
  intros T H. destruct p as [v|e t|f x y z]; cbn [inSomeFace onMesh elemOf touches] in *.
  - destruct (cn_vh _ CN v H) as (L & Ev). pose proof (vh_interior v H) as I. rewrite p_vHe by auto. cbn [bind].
    rewrite p_face by auto. cbn [bind]. pose proof (live_face_of _ L I) as F. assert (FL : liveFL m (fa m (vh m v))) by (left; auto).
    rewrite p_fHe by auto. cbn [bind]. destruct (cn_fh _ CN _ FL) as (Lt & Ft).
    rewrite p_next by auto. cbn [bind]. destruct (T _ L I) as (_ & N3 & _).
    set (f := fa m (vh m v)) in *. set (g := fh m f) in *.
    destruct (Z.eqb_spec (vh m v) g) as [E|E]; [|destruct (Z.eqb_spec (nx m (vh m v)) g) as [E1|E1]].
    + exists f, 1%R, 0%R, 0%R. split; [reflexivity|]. split; [exact F|]. split; [exists (vh m v); auto|]. split; [|intros _; lra].
      intros data. unfold valueAt. cbn [weights fold_right]. change (fh m f) with g. rewrite <- E, Ev. lra.
    + exists f, 0%R, 0%R, 1%R. split; [reflexivity|]. split; [exact F|]. split; [exists (vh m v); auto|]. split; [|intros _; lra].
      intros data. unfold valueAt. cbn [weights fold_right]. change (fh m f) with g. rewrite <- E1, N3, Ev. lra.
    + exists f, 0%R, 1%R, 0%R. split; [reflexivity|]. split; [exact F|]. split; [exists (vh m v); auto|]. split; [|intros _; lra].
      intros data. unfold valueAt. cbn [weights fold_right]. change (fh m f) with g.
      destruct (tri_three (vh m v) g T L I Lt Ft) as [X|[X|X]]; [congruence|congruence|]. rewrite X, N3, Ev. lra.
  - change (eHe e) with (2 * e). assert (I : ~ ext m (2 * e)) by (apply CN; auto; lia).
    rewrite p_face by auto. cbn [bind]. pose proof (live_face_of _ H I) as F. assert (FL : liveFL m (fa m (2 * e))) by (left; auto).
    rewrite p_fHe by auto. cbn [bind]. destruct (cn_fh _ CN _ FL) as (Lt & Ft).
    rewrite p_next by auto. cbn [bind]. destruct (T _ H I) as (_ & N3 & _). pose proof (cn_vnx _ CN _ H) as VN.
    assert (TE : exists h, liveH m h /\ fa m h = fa m (2 * e) /\ edge h = e) by (exists (2 * e); split; [auto|]; split; [reflexivity|apply edge_eHe]).
    set (f := fa m (2 * e)) in *. set (g := fh m f) in *.
    destruct (Z.eqb_spec (2 * e) g) as [E|E]; [|destruct (Z.eqb_spec (nx m (2 * e)) g) as [E1|E1]].
    + exists f, (1 - t)%R, t, 0%R. split; [reflexivity|]. split; [exact F|]. split; [exact TE|]. split; [|intros; lra].
      intros data. unfold valueAt. cbn [weights fold_right]. change (fh m f) with g. rewrite <- E, VN. lra.
    + exists f, t, 0%R, (1 - t)%R. split; [reflexivity|]. split; [exact F|]. split; [exact TE|]. split; [|intros; lra].
      intros data. unfold valueAt. cbn [weights fold_right]. change (fh m f) with g. rewrite <- E1, N3, VN. lra.
    + exists f, 0%R, (1 - t)%R, t. split; [reflexivity|]. split; [exact F|]. split; [exact TE|]. split; [|intros; lra].
      intros data. unfold valueAt. cbn [weights fold_right]. change (fh m f) with g.
      destruct (tri_three (2 * e) g T H I Lt Ft) as [X|[X|X]]; [congruence|congruence|]. rewrite X, N3, VN. lra.
  - exists f, x, y, z. split; [reflexivity|]. split; [exact H|]. split; [reflexivity|]. split; [intros data; reflexivity|auto].
Qed.

(** ** inFace *)
Lemma tri_list f : triangular m -> liveF m f -> faceHalfedges m f = Ok [fh m f; nx m (fh m f); nx m (nx m (fh m f))].
Proof.
  intros T F. assert (FL : liveFL m f) by (left; auto). destruct (cn_fh _ CN f FL) as (L & Ff).
  assert (I : ~ ext m (fh m f)) by (apply liveF_not_ext; auto; rewrite Ff; auto).
  destruct (T _ L I) as (_ & N3 & N1). assert (L1 := cn_nx _ CN _ L). assert (L2 := cn_nx _ CN _ L1).
  destruct (faceHalfedges_ok m V f FL) as (l & E & NE & C & ND & R). rewrite E. f_equal.
  assert (N2 : nx m (nx m (fh m f)) <> fh m f). { intros X. rewrite X in N3. congruence. }
  assert (N2' : nx m (nx m (fh m f)) <> nx m (fh m f)). { intros X. apply N1. rewrite <- X at 1. congruence. }
  destruct l as [|a l]; [congruence|]. cbn [chain] in C. destruct C as (-> & C).
  assert (In1 : In (nx m (fh m f)) (fh m f :: l)) by (apply R; split; auto; rewrite (cn_fnx _ CN) by auto; exact Ff).
  destruct l as [|b l]; [destruct In1 as [X|[]]; congruence|]. cbn [chain] in C. destruct C as (-> & C).
  assert (In2 : In (nx m (nx m (fh m f))) (fh m f :: nx m (fh m f) :: l)) by (apply R; split; auto; rewrite !(cn_fnx _ CN) by auto; exact Ff).
  destruct l as [|c l]; [destruct In2 as [X|[X|[]]]; congruence|]. cbn [chain] in C. destruct C as (-> & C).
  destruct l as [|d l]; [reflexivity|]. cbn [chain] in C. destruct C as (-> & C). exfalso. inversion ND as [|? ? X Y]; subst. apply X. rewrite N3. right. right. left. reflexivity.
Qed.
Lemma tri_touch f h : triangular m -> liveF m f -> liveH m h -> fa m h = f -> h = fh m f \/ h = nx m (fh m f) \/ h = nx m (nx m (fh m f)).
Proof.
  intros T F L E. assert (FL : liveFL m f) by (left; auto). destruct (cn_fh _ CN f FL) as (Lf & Ff).
  apply tri_three; auto. apply liveF_not_ext; auto. rewrite Ff; auto. congruence.
Qed.

Lemma inFace_ok p f : triangular m -> onMesh m p -> liveF m f ->
  (touches m (elemOf p) f -> exists x y z, inFace m p f = Ok (PFace f x y z) /\ samePoint m (PFace f x y z) p) /\
  (~ touches m (elemOf p) f -> inFace m p f = Throw).
Proof.
  intros T H F. assert (FL : liveFL m f) by (left; auto). destruct (cn_fh _ CN f FL) as (L & Ff).
  assert (L1 := cn_nx _ CN _ L). assert (L2 := cn_nx _ CN _ L1).
  assert (F1 : fa m (nx m (fh m f)) = f) by (rewrite (cn_fnx _ CN); auto).
  assert (F2 : fa m (nx m (nx m (fh m f))) = f) by (rewrite (cn_fnx _ CN); auto).
  pose proof (fun h => tri_touch f h T F) as TT.
  assert (I : ~ ext m (fh m f)) by (apply liveF_not_ext; auto; rewrite Ff; auto).
  destruct (T _ L I) as (_ & N3 & _).
  destruct p as [v|e t|g x y z]; cbn [inFace onMesh elemOf touches] in *.
  - rewrite p_fHe by auto. cbn [bind]. rewrite p_vert by auto. cbn [bind].
    rewrite p_next by auto. cbn [bind]. rewrite p_vert by auto. cbn [bind].
    rewrite p_next by auto. cbn [bind]. rewrite p_vert by auto. cbn [bind].
    destruct (Z.eqb_spec (ve m (fh m f)) v) as [E|E]; [split; intros X; [|exfalso; apply X; eauto] |
      destruct (Z.eqb_spec (ve m (nx m (fh m f))) v) as [E1|E1]; [split; intros X; [|exfalso; apply X; eauto] |
        destruct (Z.eqb_spec (ve m (nx m (nx m (fh m f)))) v) as [E2|E2]; [split; intros X; [|exfalso; apply X; eauto] | split; intros X]]].
    + exists 1%R, 0%R, 0%R. split; [reflexivity|]. intros data. unfold valueAt. cbn [weights fold_right]. rewrite E. lra.
    + exists 0%R, 1%R, 0%R. split; [reflexivity|]. intros data. unfold valueAt. cbn [weights fold_right]. rewrite E1. lra.
    + exists 0%R, 0%R, 1%R. split; [reflexivity|]. intros data. unfold valueAt. cbn [weights fold_right]. rewrite E2. lra.
    + exfalso. destruct X as (h & Lh & Fh & Vh). destruct (TT h Lh Fh) as [->|[->| ->]]; congruence.
    + reflexivity.
  - rewrite tri_list by auto. cbn [bind]. change (eHe e) with (2 * e). pose proof (cn_vnx _ CN _ L) as V0.
    pose proof (cn_vnx _ CN _ L1) as V1. pose proof (cn_vnx _ CN _ L2) as V2. rewrite N3 in V2.
    assert (TX : (exists h, liveH m h /\ fa m h = f /\ edge h = e) <-> In (2 * e) [fh m f; nx m (fh m f); nx m (nx m (fh m f))] \/ In (tw (2 * e)) [fh m f; nx m (fh m f); nx m (nx m (fh m f))]).
    { split.
      - intros (h & Lh & Fh & Eh). assert (X : h = 2 * e \/ h = tw (2 * e)) by (apply edge_eq; rewrite Eh; symmetry; apply edge_eHe).
        destruct (TT h Lh Fh) as [Y|[Y|Y]]; rewrite Y in X; cbn [In]; tauto.
      - assert (E2 : edge (2 * e) = e) by apply edge_eHe.
        assert (E3 : edge (tw (2 * e)) = e) by (rewrite tw_edge; exact E2).
        intros [X|X]; cbn [In] in X; (destruct X as [X|[X|[X|[]]]]); rewrite <- X in *; eauto. }
    cbn [indexOf]. remember (fh m f) as a. remember (nx m a) as b. remember (nx m b) as c.
    cbn [In] in TX.
    destruct (Z.eqb_spec a (2 * e)) as [E|E]; [|destruct (Z.eqb_spec b (2 * e)) as [E1|E1]; [|destruct (Z.eqb_spec c (2 * e)) as [E2|E2]]].
    1-3: cbn [option_map setBary bind]; (split; [intros _; do 3 eexists; split; [reflexivity|]; intros data; unfold valueAt; cbn [weights fold_right];
      rewrite <- ?Heqa, <- ?Heqb, <- ?Heqc; rewrite <- ?E, <- ?E1, <- ?E2, ?V0, ?V1, ?V2 ; lra | intros X; exfalso; tauto]).
    cbn [option_map].
    destruct (Z.eqb_spec a (tw (2 * e))) as [D|D]; [|destruct (Z.eqb_spec b (tw (2 * e))) as [D1|D1]; [|destruct (Z.eqb_spec c (tw (2 * e))) as [D2|D2]]].
    1-3: cbn [option_map setBary bind]; (split; [intros _; do 3 eexists; split; [reflexivity|]; intros data; unfold valueAt; cbn [weights fold_right];
      rewrite <- ?Heqa, <- ?Heqb, <- ?Heqc | intros X; exfalso; tauto]).
    + assert (Y : tw a = 2 * e) by (rewrite D; apply tw_tw). rewrite <- D, <- Y, V0. lra.
    + assert (Y : tw b = 2 * e) by (rewrite D1; apply tw_tw). rewrite <- D1, <- Y, V1. lra.
    + assert (Y : tw c = 2 * e) by (rewrite D2; apply tw_tw). rewrite <- D2, <- Y, V2. lra.
    + cbn [option_map]. split; intros X; [exfalso; tauto|reflexivity].
  - destruct (Z.eqb_spec g f) as [->|E]; split; intros X; try contradiction; try reflexivity. exists x, y, z. split; [reflexivity|intros data; reflexivity].
Qed.

(** ** inEdge *)
Lemma inEdge_ok p e : onMesh m p -> liveH m (2 * e) ->
  (~ onEdge m (elemOf p) e -> inEdge m p e = Throw) /\
  (forall e' t, p = PEdge e' t -> e' = e -> inEdge m p e = Ok p).
Proof.
  intros H L. assert (L1 := cn_nx _ CN _ L). pose proof (cn_vnx _ CN _ L) as VN.
  destruct p as [v|e' t|f x y z]; cbn [inEdge onMesh elemOf onEdge] in *; change (eHe e) with (2 * e).
  - rewrite p_vert by auto. cbn [bind]. rewrite p_next by auto. cbn [bind]. rewrite p_vert by auto. cbn [bind]. split; [|congruence].
    intros X. destruct (Z.eqb_spec v (ve m (2 * e))) as [E|E]; [|destruct (Z.eqb_spec v (ve m (nx m (2 * e)))) as [E1|E1]; auto]; exfalso; apply X.
    + exists (2 * e). split; auto. split; auto. apply edge_eHe.
    + exists (tw (2 * e)). split. apply CN; auto. split; [|congruence]. rewrite tw_edge. apply edge_eHe.
  - split; [intros X|intros ? ? [= <- <-] ->]. destruct (Z.eqb_spec e' e); congruence. rewrite Z.eqb_refl. reflexivity.
  - split; [reflexivity|congruence].
Qed.
Lemma inEdge_swaps e : liveH m (2 * e) -> ve m (2 * e) <> ve m (tw (2 * e)) ->
  exists p q, inEdge m (PVertex (ve m (2 * e))) e = Ok p /\ inEdge m (PVertex (ve m (tw (2 * e)))) e = Ok q /\
    (forall data, valueAt m data p = data (ve m (tw (2 * e)))) /\ (forall data, valueAt m data q = data (ve m (2 * e))).
Proof.
  intros L N. assert (L1 := cn_nx _ CN _ L). pose proof (cn_vnx _ CN _ L) as VN. cbn [inEdge]. change (eHe e) with (2 * e).
  rewrite p_vert by auto. cbn [bind]. rewrite Z.eqb_refl. rewrite p_next by auto. cbn [bind]. rewrite p_vert by auto. cbn [bind].
  rewrite (proj2 (Z.eqb_neq _ _)) by congruence. rewrite VN, Z.eqb_refl. do 2 eexists. split; [reflexivity|]. split; [reflexivity|].
  split; intros data; unfold valueAt; cbn [weights fold_right]; lra.
Qed.

(** ** nearestVertex *)
Lemma nearestVertex_ok p : onMesh m p -> exists v w, nearestVertex m p = Ok v /\ In (v, w) (weights m p) /\ forall u w', In (u, w') (weights m p) -> (w' <= w)%R.
Proof.
  intros H. destruct p as [v|e t|f x y z]; cbn [nearestVertex onMesh weights] in *.
  - exists v, 1%R. split; [reflexivity|]. split; [left; reflexivity|]. intros u w' [[= <- <-]|[]]. lra.
  - change (eHe e) with (2 * e). rewrite !p_vert by (auto; apply CN; auto). destruct (Rlt_dec t (1/2)) as [X|X].
    + exists (ve m (2 * e)), (1 - t)%R. split; [reflexivity|]. split; [left; reflexivity|]. intros u w' [[= <- <-]|[[= <- <-]|[]]]; lra.
    + exists (ve m (tw (2 * e))), t. split; [reflexivity|]. split; [right; left; reflexivity|]. intros u w' [[= <- <-]|[[= <- <-]|[]]]; lra.
  - assert (F : liveFL m f) by (left; auto). rewrite p_fHe by auto. cbn [bind]. destruct (cn_fh _ CN f F) as (L & _).
    assert (L1 := cn_nx _ CN _ L). assert (L2 := cn_nx _ CN _ L1).
    rewrite !p_vert by auto. cbn [bind]. rewrite !p_next by auto. cbn [bind]. rewrite !p_vert by auto. rewrite !p_next by auto. cbn [bind]. rewrite !p_vert by auto.
    destruct (Rge_dec x y) as [A|A]; [destruct (Rge_dec x z) as [B|B]|destruct (Rge_dec y z) as [B|B]];
      do 2 eexists; (split; [reflexivity|]).
    + split; [left; reflexivity|]. intros u w' [[= <- <-]|[[= <- <-]|[[= <- <-]|[]]]]; lra.
    + split; [right; right; left; reflexivity|]. intros u w' [[= <- <-]|[[= <- <-]|[[= <- <-]|[]]]]; lra.
    + split; [right; left; reflexivity|]. intros u w' [[= <- <-]|[[= <- <-]|[[= <- <-]|[]]]]; lra.
    + split; [right; right; left; reflexivity|]. intros u w' [[= <- <-]|[[= <- <-]|[[= <- <-]|[]]]]; lra.
Qed.

(** ** adjacency *)
Lemma anyM_ok {A} (t : A -> res bool) (P : A -> Prop) l : (forall x, In x l -> exists b, t x = Ok b /\ (b = true <-> P x)) ->
  exists b, anyM t l = Ok b /\ (b = true <-> exists x, In x l /\ P x).
Proof.
  intros H. unfold anyM. assert (G : forall b0, exists b, foldM (fun b x => let* c := t x in Ok (if c then true else b)) l b0 = Ok b /\
    (b = true <-> b0 = true \/ exists x, In x l /\ P x)); [|destruct (G false) as (b & E & K); exists b; split; auto; rewrite K; split; [intros [?|?]; [discriminate|auto]|auto]].
  induction l as [|a l IH]; intros b0; cbn [foldM].
  - exists b0. split; [reflexivity|]. split; [auto|]. intros [?|(x & [] & _)]; auto.
  - destruct (H a (or_introl eq_refl)) as (c & E & K). rewrite E. cbn [bind].
    destruct (IH (fun x Hx => H x (or_intror Hx)) (if c then true else b0)) as (b & Eb & Kb). exists b. split; auto. rewrite Kb. split.
    + intros [X|(x & X & Y)]; [|right; exists x; split; [right; auto|auto]]. destruct c; [|auto]. right. exists a. split; [left; auto|apply K; auto].
    + intros [X|(x & [->|X] & Y)]; [left; destruct c; auto| |right; eauto]. left. apply K in Y. rewrite Y. reflexivity.
Qed.
Lemma firstM_ok (t : Z -> res bool) (P : Z -> Prop) l : (forall x, In x l -> exists b, t x = Ok b /\ (b = true <-> P x)) ->
  exists r, firstM t l = Ok r /\ match r with Some x => In x l /\ P x | None => forall x, In x l -> ~ P x end.
Proof.
  induction l as [|a l IH]; intros H; cbn [firstM].
  - exists None. split; [reflexivity|]. intros x [].
  - destruct (H a (or_introl eq_refl)) as (b & E & K). rewrite E. cbn [bind]. destruct b.
    + exists (Some a). split; [reflexivity|]. split; [left; auto|apply K; auto].
    + destruct (IH (fun x Hx => H x (or_intror Hx))) as (r & Er & R). exists r. split; auto. destruct r as [x|].
      * destruct R. split; [right|]; auto.
      * intros x [->|Hx]; auto. intros Y. apply K in Y. discriminate.
Qed.
Lemma faces_ok l : (forall h, In h l -> liveH m h) ->
  exists fs, mapM (fun h => let* b := isInterior m h in let* f := faceOf m h in Ok (if b then [f] else [])) l = Ok fs /\
    forall f, In f (concat fs) <-> exists h, In h l /\ ~ ext m h /\ fa m h = f.
Proof.
  induction l as [|a l IH]; intros H; cbn [mapM].
  - exists []. split; [reflexivity|]. cbn. split; [intros []|intros (h & [] & _)].
  - rewrite isInterior_ok by (auto; apply H; left; auto). cbn [bind]. rewrite p_face by (apply H; left; auto). cbn [bind].
    destruct IH as (fs & E & K); [intros; apply H; right; auto|]. rewrite E. cbn [bind]. eexists. split; [reflexivity|].
    intros f. cbn [concat]. rewrite in_app_iff, K. unfold ext. destruct (Z.leb_spec (fFill m) (fa m a)); cbn [negb In]; split.
    + intros [[]|(h & X & Y)]. exists h. auto.
    + intros (h & [->|X] & Y & Z1); [contradiction|]. right. eauto.
    + intros [[<-|[]]|(h & X & Y)]; [exists a; split; auto; split; [lia|auto]|exists h; auto].
    + intros (h & [->|X] & Y & Z1); [auto|]. right. eauto.
Qed.
Lemma adjFaces_ok v : liveV m v -> exists fs, adjFaces m v = Ok fs /\ forall f, In f fs <-> liveF m f /\ touches m (EV v) f.
Proof.
  intros H. destruct (vertHalfedges_ok m V v H) as (l & E & _ & _ & _ & R). unfold adjFaces. rewrite E. cbn [bind].
  destruct (faces_ok l) as (fs & Ef & K); [intros h X; apply R; auto|]. rewrite Ef. cbn [bind]. eexists. split; [reflexivity|].
  intros f. rewrite K. cbn [touches]. split.
  - intros (h & X & Y & <-). apply R in X as (L & Ev). split; [apply live_face_of; auto|exists h; auto].
  - intros (F & h & L & Fh & Ev). exists h. split; [apply R; auto|]. split; [apply liveF_not_ext; auto; rewrite Fh; auto|auto].
Qed.
Lemma edgeFaces_ok e : liveH m (2 * e) -> exists fs, edgeFaces m e = Ok fs /\ forall f, In f fs <-> liveF m f /\ touches m (EE e) f.
Proof.
  intros H. unfold edgeFaces. change (eHe e) with (2 * e). assert (H1 : liveH m (tw (2 * e))) by (apply CN; auto).
  destruct (faces_ok [2 * e; tw (2 * e)]) as (fs & Ef & K); [intros h [<-|[<-|[]]]; auto|]. rewrite Ef. cbn [bind]. eexists. split; [reflexivity|].
  intros f. rewrite K. cbn [touches]. split.
  - intros (h & X & Y & <-). assert (L : liveH m h) by (destruct X as [<-|[<-|[]]]; auto). split; [apply live_face_of; auto|exists h; split; auto; split; auto].
    destruct X as [<-|[<-|[]]]; [apply edge_eHe|rewrite tw_edge; apply edge_eHe].
  - intros (F & h & L & Fh & Ev). exists h. split; [|split; [apply liveF_not_ext; auto; rewrite Fh; auto|auto]].
    assert (X : h = 2 * e \/ h = tw (2 * e)) by (apply edge_eq; rewrite Ev; symmetry; apply edge_eHe). cbn [In]. destruct X; auto.
Qed.

Lemma adjVF_ok v f : liveV m v -> exists b, adjVF m v f = Ok b /\ (b = true <-> liveF m f /\ touches m (EV v) f).
Proof.
  intros H. unfold adjVF. destruct (adjFaces_ok v H) as (fs & E & K). rewrite E. cbn [bind].
  destruct (anyM_ok (fun x => Ok (x =? f)) (fun x => x = f) fs) as (b & Eb & Kb); [intros x _; eexists; split; [reflexivity|apply Z.eqb_eq]|].
  exists b. split; auto. rewrite Kb, <- K. split; [intros (x & X & ->); auto|eauto].
Qed.
Lemma adjEF_ok e f : liveFL m f -> exists b, adjEF m e f = Ok b /\ (b = true <-> touches m (EE e) f).
Proof.
  intros H. unfold adjEF. destruct (faceHalfedges_ok m V f H) as (l & E & _ & _ & _ & R). rewrite E. cbn [bind].
  destruct (anyM_ok (fun x => Ok (edge x =? e)) (fun x => edge x = e) l) as (b & Eb & Kb); [intros x _; eexists; split; [reflexivity|apply Z.eqb_eq]|].
  exists b. split; auto. rewrite Kb. cbn [touches]. split; [intros (x & X & Y); apply R in X; exists x; tauto|intros (h & A & B & C); exists h; split; [apply R|]; auto].
Qed.
Lemma faceAdj_ok f b : liveF m f -> liveE m b -> exists r, checkAdjacent m (EF f) b = Ok r /\ (r = true <-> touches m b f).
Proof.
  intros F H. destruct b as [v|e|g]; cbn [checkAdjacent liveE] in *.
  - destruct (adjVF_ok v f H) as (b & E & K). exists b. split; auto. rewrite K. tauto.
  - apply adjEF_ok. left; auto.
  - eexists. split; [reflexivity|]. cbn [touches]. rewrite Z.eqb_eq. split; auto.
Qed.
Lemma sharedFace_ok a b : liveE m a -> liveE m b ->
  exists r, sharedFace m a b = Ok r /\ match r with Some f => liveF m f /\ touches m a f /\ touches m b f | None => forall f, liveF m f -> ~ (touches m a f /\ touches m b f) end.
Proof.
  intros A B. assert (G : forall fs, (forall f, In f fs <-> liveF m f /\ touches m a f) ->
    exists r, firstM (fun f => checkAdjacent m (EF f) b) fs = Ok r /\ match r with Some f => liveF m f /\ touches m a f /\ touches m b f | None => forall f, liveF m f -> ~ (touches m a f /\ touches m b f) end).
  { intros fs K. destruct (firstM_ok (fun f => checkAdjacent m (EF f) b) (fun f => touches m b f) fs) as (r & E & R).
    intros x Hx. apply faceAdj_ok; auto. apply K in Hx. tauto. exists r. split; auto. destruct r as [f|].
    - destruct R as (X & Y). apply K in X. tauto.
    - intros f F (X & Y). apply (R f); auto. apply K. auto. }
  destruct a as [v|e|f]; cbn [sharedFace liveE] in *.
  - destruct (adjFaces_ok v A) as (fs & E & K). rewrite E. cbn [bind]. apply G. exact K.
  - destruct (edgeFaces_ok e A) as (fs & E & K). rewrite E. cbn [bind]. apply G. exact K.
  - destruct (faceAdj_ok f b A B) as (r & E & K). rewrite E. cbn [bind]. eexists. split; [reflexivity|]. destruct r.
    + split; auto. split; [reflexivity|]. apply K; auto.
    + intros g G0 (<- & Y). apply K in Y. discriminate.
Qed.
Lemma sharedEdge_ok a b : liveE m a -> liveE m b ->
  exists r, sharedEdge m a b = Ok r /\
    match r with
    | Some e => liveH m (2 * e) /\ onEdge m a e /\ onEdge m b e
    | None => (forall v, a = EV v -> b <> EV v) -> forall e, liveH m (2 * e) -> ~ (onEdge m a e /\ onEdge m b e)
    end.
Proof.
  intros A B.
  assert (Half : forall h, liveH m h -> liveH m (2 * edge h)).
  { intros h L. assert (X : h = 2 * edge h \/ h = tw (2 * edge h)) by (apply edge_eq; symmetry; apply edge_eHe).
    destruct X as [X|X]; [rewrite <- X; auto|]. assert (tw h = 2 * edge h) as <- by (rewrite X at 1; apply tw_tw). apply CN; auto. }
  assert (VE : forall v e, liveV m v -> liveH m (2 * e) -> exists r, (let* hs := vertHalfedges m v in let* r := firstM (fun h => Ok (edge h =? e)) hs in Ok (option_map edge r)) = Ok r /\
    match r with Some e' => e' = e /\ onEdge m (EV v) e | None => ~ onEdge m (EV v) e end).
  { intros v e Hv He. destruct (vertHalfedges_ok m V v Hv) as (l & E & _ & _ & _ & R). rewrite E. cbn [bind].
    destruct (firstM_ok (fun h => Ok (edge h =? e)) (fun h => edge h = e) l) as (r & Er & K); [intros x _; eexists; split; [reflexivity|apply Z.eqb_eq]|].
    rewrite Er. cbn [bind]. eexists. split; [reflexivity|]. destruct r as [h|]; cbn [option_map].
    - destruct K as (X & Y). apply R in X as (L & Ev). split; auto. exists h; auto.
    - intros (h & L & Eh & Ev). apply (K h); auto. apply R; auto. }
  destruct a as [v|e|f], b as [w|e'|g]; cbn [sharedEdge liveE] in *.
  - destruct (vertHalfedges_ok m V v A) as (l & E & _ & _ & _ & R). rewrite E. cbn [bind].
    destruct (firstM_ok (fun h => let* n := next m h in let* u := vertexOf m n in Ok (u =? w)) (fun h => ve m (tw h) = w) l) as (r & Er & K).
    { intros x Hx. apply R in Hx as (L & Ev). rewrite p_next by auto. cbn [bind]. rewrite p_vert by (apply CN; auto). cbn [bind].
      eexists. split; [reflexivity|]. rewrite (cn_vnx _ CN x L). apply Z.eqb_eq. }
    rewrite Er. cbn [bind]. eexists. split; [reflexivity|]. destruct r as [h|]; cbn [option_map].
    + destruct K as (X & Y). apply R in X as (L & Ev). split; [auto|]. split; [exists h; auto|]. exists (tw h). split; [apply CN; auto|]. split; [apply tw_edge|auto].
    + intros N e He ((h & L & Eh & Ev) & (h' & L' & Eh' & Ev')). assert (X : h' = h \/ h' = tw h) by (apply edge_eq; congruence).
      destruct X as [->| ->]; [apply (N v); congruence|]. apply (K h); auto. apply R; auto.
  - destruct (VE v e' A B) as (r & E & K). exists r. split; [exact E|]. destruct r as [x|].
    + destruct K as (-> & K). split; auto. split; auto. reflexivity.
    + intros _ e He (X & Y). cbn [onEdge] in Y. subst. auto.
  - eexists. split; [reflexivity|]. cbn [onEdge]. intros _ ? _ (_ & []).
  - destruct (VE w e B A) as (r & E & K). exists r. split; [exact E|]. destruct r as [x|].
    + destruct K as (-> & K). split; auto. split; [reflexivity|auto].
    + intros _ e0 He (X & Y). cbn [onEdge] in X. subst. auto.
  - eexists. split; [reflexivity|]. destruct (Z.eqb_spec e e') as [->|N]; cbn [onEdge]; auto. intros _ x Hx (-> & X). congruence.
  - eexists. split; [reflexivity|]. cbn [onEdge]. intros _ ? _ (_ & []).
  - eexists. split; [reflexivity|]. cbn [onEdge]. intros _ ? _ ([] & _).
  - eexists. split; [reflexivity|]. cbn [onEdge]. intros _ ? _ ([] & _).
  - eexists. split; [reflexivity|]. cbn [onEdge]. intros _ ? _ ([] & _).
Qed.

Lemma sharedEdge_distinct a b : liveE m a -> liveE m b ->
  exists r, sharedEdge m a b = Ok r /\
    match r with
    | Some e => liveH m (2 * e) /\ onEdge m a e /\ onEdge m b e
    | None => a <> b -> forall e, liveH m (2 * e) -> ~ (onEdge m a e /\ onEdge m b e)
    end.
Proof.
  intros A B. destruct (sharedEdge_ok a b A B) as (r & E & K). exists r. split; auto. destruct r; auto. intros N. apply K. intros v -> ->. auto.
Qed.

(** checkAdjacent. A true answer may come from a boundary loop the two elements lie on. *)
Lemma checkAdjacent_ok a b : triangular m -> liveE m a -> liveE m b ->
  exists r, checkAdjacent m a b = Ok r /\
    (r = true -> exists f, liveFL m f /\ touches m a f /\ touches m b f) /\
    (a <> b -> (exists f, liveF m f /\ touches m a f /\ touches m b f) -> r = true).
Proof.
  intros T A B.
  assert (FLh : forall h, liveH m h -> liveFL m (fa m h)) by (intros; apply CN; auto).
  assert (VE : forall v e, liveV m v -> liveH m (2 * e) -> exists r, adjVE m v e = Ok r /\
    (r = true -> exists f, liveFL m f /\ touches m (EV v) f /\ touches m (EE e) f) /\
    ((exists f, liveF m f /\ touches m (EV v) f /\ touches m (EE e) f) -> r = true)).
  { intros v e Hv He. unfold adjVE. destruct (vertHalfedges_ok m V v Hv) as (l & E & _ & _ & _ & R). rewrite E. cbn [bind].
    destruct (anyM_ok (fun h => let* n := next m h in Ok ((e =? edge n) || (e =? edge h))) (fun h => e = edge (nx m h) \/ e = edge h) l) as (r & Er & K).
    { intros h Hh. apply R in Hh as (L & Ev). rewrite p_next by auto. cbn [bind]. eexists. split; [reflexivity|]. rewrite Bool.orb_true_iff, !Z.eqb_eq. reflexivity. }
    exists r. split; auto. split.
    - intros X. apply K in X as (h & Hh & [X|X]); apply R in Hh as (L & Ev); exists (fa m h); (split; [auto|]); (split; [exists h; auto|]).
      + exists (nx m h). split; [apply (cn_nx _ CN); auto|]. split; [apply (cn_fnx _ CN); auto|auto].
      + exists h. auto.
    - intros (f & F & (h & L & Fh & Ev) & (g & Lg & Fg & Eg)). apply K.
      destruct (tri_three h g T L (liveF_not_ext h L ltac:(rewrite Fh; auto)) Lg ltac:(congruence)) as [X|[X|X]].
      + exists h. split; [apply R; auto|]. right. congruence.
      + exists h. split; [apply R; auto|]. left. congruence.
      + exists (tw g). assert (Lt := cn_tw _ CN _ Lg). split; [apply R; split; [auto|]|right; rewrite tw_edge; auto].
        rewrite <- (cn_vnx _ CN g Lg), X. destruct (T h L (liveF_not_ext h L ltac:(rewrite Fh; auto))) as (_ & N3 & _). rewrite N3. exact Ev. }
  destruct a as [v|e|f], b as [w|e'|g]; cbn [checkAdjacent liveE] in *.
  - unfold adjVV. destruct (vertHalfedges_ok m V v A) as (l & E & _ & _ & _ & R). rewrite E. cbn [bind].
    destruct (anyM_ok (fun h => let* n := next m h in let* u := vertexOf m n in Ok (u =? w)) (fun h => ve m (tw h) = w) l) as (r & Er & K).
    { intros x Hx. apply R in Hx as (L & Ev). rewrite p_next by auto. cbn [bind]. rewrite p_vert by (apply CN; auto). cbn [bind].
      eexists. split; [reflexivity|]. rewrite (cn_vnx _ CN x L). apply Z.eqb_eq. }
    exists r. split; auto. split.
    + intros X. apply K in X as (h & Hh & X). apply R in Hh as (L & Ev). exists (fa m h). split; auto. split; [exists h; auto|].
      exists (nx m h). split; [apply (cn_nx _ CN); auto|]. split; [apply (cn_fnx _ CN); auto|]. rewrite (cn_vnx _ CN h L). exact X.
    + intros N (f & F & (h & L & Fh & Ev) & (g & Lg & Fg & Eg)). apply K.
      destruct (tri_three h g T L (liveF_not_ext h L ltac:(rewrite Fh; auto)) Lg ltac:(congruence)) as [X|[X|X]].
      * subst g. congruence.
      * exists h. split; [apply R; auto|]. rewrite <- (cn_vnx _ CN h L). congruence.
      * exists (tw g). assert (Lt := cn_tw _ CN _ Lg). split; [apply R; split; [auto|]|rewrite tw_tw; auto].
        rewrite <- (cn_vnx _ CN g Lg), X. destruct (T h L (liveF_not_ext h L ltac:(rewrite Fh; auto))) as (_ & N3 & _). rewrite N3. exact Ev.
  - destruct (VE v e' A B) as (r & E & X & Y). exists r. auto.
  - destruct (adjVF_ok v g A) as (r & E & K). exists r. split; auto. split.
    + intros X. apply K in X. exists g. split; [left; tauto|]. split; [tauto|reflexivity].
    + intros _ (f & F & X & <-). apply K. auto.
  - destruct (VE w e B A) as (r & E & X & Y). exists r. split; auto. split; [intros Z1; destruct (X Z1) as (f & ? & ? & ?); eauto|].
    intros _ (f & ? & ? & ?). apply Y. eauto.
  - unfold adjEE. change (eHe e) with (2 * e). change (eHe e') with (2 * e'). assert (A1 := cn_tw _ CN _ A). assert (B1 := cn_tw _ CN _ B).
    rewrite !p_face by auto. cbn [bind].
    eexists. split; [reflexivity|]. rewrite !Bool.orb_true_iff, !Z.eqb_eq.
    assert (Ea : edge (2 * e) = e) by apply edge_eHe. assert (Eb : edge (2 * e') = e') by apply edge_eHe.
    assert (Ea' : edge (tw (2 * e)) = e) by (rewrite tw_edge; auto). assert (Eb' : edge (tw (2 * e')) = e') by (rewrite tw_edge; auto).
    split.
    + cbn [touches]. intros [[[X|X]|X]|X].
      * exists (fa m (2 * e)). split; auto. split; [exists (2 * e); auto|exists (2 * e'); auto].
      * exists (fa m (tw (2 * e))). split; auto. split; [exists (tw (2 * e)); auto|exists (2 * e'); auto].
      * exists (fa m (2 * e)). split; auto. split; [exists (2 * e); auto|exists (tw (2 * e')); auto].
      * exists (fa m (tw (2 * e))). split; auto. split; [exists (tw (2 * e)); auto|exists (tw (2 * e')); auto].
    + intros _ (f & F & (h & L & Fh & Eh) & (g & Lg & Fg & Eg)).
      assert (X : h = 2 * e \/ h = tw (2 * e)) by (apply edge_eq; congruence).
      assert (Y : g = 2 * e' \/ g = tw (2 * e')) by (apply edge_eq; congruence).
      destruct X as [X|X], Y as [Y|Y]; rewrite <- X, <- Y, Fh, Fg; auto.
  - destruct (adjEF_ok e g (or_introl B)) as (r & E & K). exists r. split; auto. split.
    + intros X. apply K in X. exists g. split; [left; auto|]. split; [auto|reflexivity].
    + intros _ (f & F & X & <-). apply K. auto.
  - destruct (adjVF_ok w f B) as (r & E & K). exists r. split; auto. split.
    + intros X. apply K in X. exists f. split; [left; tauto|]. split; [reflexivity|tauto].
    + intros _ (g & F & <- & X). apply K. auto.
  - destruct (adjEF_ok e' f (or_introl A)) as (r & E & K). exists r. split; auto. split.
    + intros X. apply K in X. exists f. split; [left; auto|]. split; [reflexivity|auto].
    + intros _ (g & F & <- & X). apply K. auto.
  - eexists. split; [reflexivity|]. rewrite Z.eqb_eq. split.
    + intros ->. exists g. split; [left; auto|split; reflexivity].
    + intros _ (x & _ & X & Y). cbn [touches] in *. congruence.
Qed.
End P.
