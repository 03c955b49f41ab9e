(** C85, C86: operators on polygon meshes. *)
From Coq Require Import Reals Lra.
From Verif Require Import Base DataModel MeshModel MeshSpec MeshBase MeshOpSpec MeshCheck MeshExamples MeshDataModel MeshHistorySpec CountSpec MatrixModel MatrixSpec
  GeoModel IntrinsicModel IntrinsicSpec Intrinsic1 Intrinsic3 EmbeddedModel EmbeddedSpec Embedded1 EmbeddedProperties PolyModel PolySpec Poly1 Poly3 Poly4 Poly5 Poly6 Poly7 Poly8.
Open Scope R_scope.

(** ** C85: operators by virtual refinement. *)
(** The Laplacian has one row and one column per vertex, is symmetric and positive semidefinite, and annihilates the constants if the weights of each face sum to one. *)
Theorem C85_laplacian : forall m pos wts wt, Valid m -> length (dat pos) = Z.to_nat (vCap m) -> cornerWeights m wts wt ->
  exists L, simplePolygonLaplacian m pos wts = Ok L /\ rows L = Z.to_nat (nVertices m) /\ cols L = Z.to_nat (nVertices m) /\
  (forall a b, liveV m a -> liveV m b -> entryAt 0 m EVertex EVertex L a b = entryAt 0 m EVertex EVertex L b a) /\
  (forall u, 0 <= form m L u u) /\
  ((forall f, liveF m f -> faceSum m wt f = 1) -> forall a, liveV m a -> Rsum (entryAt 0 m EVertex EVertex L a) (every m EVertex) = 0).
Proof.
  intros m pos wts wt V LP CW. destruct (lap_ok m V pos LP wts wt CW) as (L & E & RL & C & F). exists L. do 3 (split; auto). split; [|split].
  - eapply lap_sym; eauto.
  - eapply lap_psd; eauto.
  - eapply lap_const; eauto.
Qed.
Print Assumptions C85_laplacian.

(** The energy of a function is the Dirichlet energy of its extension over the fan of triangles that joins each side of a face to the virtual vertex of the face, except
    that the triangles with twice the area at most 1e-7 are left out. *)
Theorem C85_dirichlet_energy_partial : forall m pos wts wt L u g, Valid m -> length (dat pos) = Z.to_nat (vCap m) -> cornerWeights m wts wt -> simplePolygonLaplacian m pos wts = Ok L ->
  (forall h, liveH m h -> ~ ext m h -> fanGradient m pos wt u h (g h)) ->
  form m L u u = Rsum (fun h => if Rlt_dec (1 / 10000000) (2 * fanArea m pos wt h) then fanArea m pos wt h * dot3 (g h) (g h) else 0) (every m ECorner).
Proof.
  intros m pos wts wt L u g V LP CW E G. destruct (lap_ok m V pos LP wts wt CW) as (L' & E' & _ & _ & F). rewrite E in E'. injection E' as <-. eapply lap_grad; eauto.
Qed.
Print Assumptions C85_dirichlet_energy_partial.

(** The Galerkin mass matrix integrates products of functions over the fans; it is symmetric and positive semidefinite, and its entries sum to the area of the fans. The lumped
    mass matrix is the diagonal matrix of its row sums. *)
Theorem C85_mass : forall m pos wts wt, Valid m -> length (dat pos) = Z.to_nat (vCap m) -> cornerWeights m wts wt ->
  exists M K, simplePolygonGalerkin m pos wts = Ok M /\ simplePolygonLumped m pos wts = Ok K /\
  rows M = Z.to_nat (nVertices m) /\ cols M = Z.to_nat (nVertices m) /\ rows K = Z.to_nat (nVertices m) /\ cols K = Z.to_nat (nVertices m) /\
  (forall u w, form m M u w = Rsum (fun h => integral (fanArea m pos wt h) (u (ve m h)) (u (ve m (nx m h))) (midValue m wt u (fa m h)) (w (ve m h)) (w (ve m (nx m h))) (midValue m wt w (fa m h))) (every m ECorner)) /\
  (forall a b, liveV m a -> liveV m b -> entryAt 0 m EVertex EVertex M a b = entryAt 0 m EVertex EVertex M b a) /\
  (forall u, 0 <= form m M u u) /\
  ((forall f, liveF m f -> faceSum m wt f = 1) -> form m M (fun _ => 1) (fun _ => 1) = Rsum (fanArea m pos wt) (every m ECorner)) /\
  (forall a b, liveV m a -> liveV m b -> entryAt 0 m EVertex EVertex K a b = if (a =? b)%Z then Rsum (entryAt 0 m EVertex EVertex M a) (every m EVertex) else 0).
Proof.
  intros m pos wts wt V LP CW. destruct (mass_ok m V pos LP wts wt CW) as (M & E & RM & C & F). destruct (lump_ok m V pos LP wts wt CW) as (K & EK & RK & CK & FK). exists M, K. do 6 (split; auto). split; [exact F|]. split; [|split; [|split]].
  - eapply mass_sym; eauto.
  - eapply mass_psd; eauto.
  - eapply mass_total; eauto.
  - eapply lump_eq; eauto.
Qed.
Print Assumptions C85_mass.

(** The prolongation keeps the values at the vertices and gives each face's virtual vertex the weighted sum of the values at its corners. *)
Theorem C85_prolongation : forall m wts wt, Valid m -> cornerWeights m wts wt ->
  exists P, simplePolygonProlongation m wts = Ok P /\ rows P = (Z.to_nat (nVertices m) + Z.to_nat (nFaces m))%nat /\ cols P = Z.to_nat (nVertices m) /\
  (forall v w, liveV m v -> liveV m w -> coeff 0 P (indexOf m EVertex v) (indexOf m EVertex w) = if (v =? w)%Z then 1 else 0) /\
  (forall f w, liveF m f -> liveV m w -> coeff 0 P (Z.to_nat (nVertices m) + indexOf m EFace f) (indexOf m EVertex w) = faceSum m (fun h => if (ve m h =? w)%Z then wt h else 0) f).
Proof. intros m wts wt V CW. exact (pro_ok m V wts wt CW). Qed.
Print Assumptions C85_prolongation.

(** *** a square and a triangle side by side *)
Lemma every_corner m h : Valid m -> In h (every m ECorner) -> liveH m h /\ ~ ext m h.
Proof. intros V H. apply (zl_In m V ECorner) in H. exact H. Qed.
Definition house := built [[0; 1; 2; 3]; [1; 4; 2]]%Z.
Definition housePos (s : R) : mdata V3 := {| dat := [mk3 0 0 0; mk3 s 0 0; mk3 s s 0; mk3 0 s 0; mk3 (2 * s) 0 0]; dflt := mk3 0 0 0 |}.
Definition houseWeights : mdata (list R) := {| dat := [[1 / 4; 1 / 4; 1 / 4; 1 / 4]; [1 / 3; 1 / 3; 1 / 3]]; dflt := [] |}.
Definition houseWt (h : Z) : R := if (fa house h =? 0)%Z then 1 / 4 else 1 / 3.
Lemma house_valid : Valid house. Proof. apply validb_Valid. vm_compute. reflexivity. Qed.
Lemma house_faces f : liveF house f -> (f = 0 \/ f = 1)%Z.
Proof. intros [B _]. change (fFill house) with 2%Z in B. lia. Qed.
Lemma house_sum0 g : faceSum house g 0 = g 0%Z + (g 2%Z + (g 4%Z + g 6%Z)).
Proof. unfold faceSum. assert (E : filter (fun h => (fa house h =? 0)%Z) (every house ECorner) = [0; 2; 4; 6]%Z) by (vm_compute; reflexivity). rewrite E. unfold Rsum. cbn. ring. Qed.
Lemma house_sum1 g : faceSum house g 1 = g 3%Z + (g 8%Z + g 10%Z).
Proof. unfold faceSum. assert (E : filter (fun h => (fa house h =? 1)%Z) (every house ECorner) = [3; 8; 10]%Z) by (vm_compute; reflexivity). rewrite E. unfold Rsum. cbn. ring. Qed.
Ltac house_ints := repeat match goal with
  | |- context [nx house ?x] => let v := eval vm_compute in (nx house x) in change (nx house x) with v
  | |- context [ve house ?x] => let v := eval vm_compute in (ve house x) in change (ve house x) with v
  | |- context [fa house ?x] => let v := eval vm_compute in (fa house x) in change (fa house x) with v
  end.
Lemma house_weights : cornerWeights house houseWeights houseWt.
Proof.
  split; [reflexivity|]. intros f L. apply house_faces in L as [-> | ->].
  - exists [0; 2; 4; 6]%Z. split; [vm_compute; reflexivity|]. cbn [map]. unfold houseWt. house_ints. reflexivity.
  - exists [8; 10; 3]%Z. split; [vm_compute; reflexivity|]. cbn [map]. unfold houseWt. house_ints. reflexivity.
Qed.
Lemma house_weights_one f : liveF house f -> faceSum house houseWt f = 1.
Proof. intros L. apply house_faces in L as [-> | ->]; rewrite ?house_sum0, ?house_sum1; unfold houseWt; house_ints; cbn [Z.eqb]; field. Qed.
Lemma house_cases h : liveH house h -> ~ ext house h -> (h = 0 \/ h = 2 \/ h = 4 \/ h = 6 \/ h = 3 \/ h = 8 \/ h = 10)%Z.
Proof.
  intros [B _] X. change (heFill house) with 12%Z in B. assert (C : (h = 0 \/ h = 1 \/ h = 2 \/ h = 3 \/ h = 4 \/ h = 5 \/ h = 6 \/ h = 7 \/ h = 8 \/ h = 9 \/ h = 10 \/ h = 11)%Z) by lia. repeat destruct C as [C|C]; subst h; try tauto; exfalso; apply X; vm_compute; congruence.
Qed.
Lemma house_mid s f : liveF house f -> midPoint house (housePos s) houseWt f = if (f =? 0)%Z then mk3 (s / 2) (s / 2) 0 else mk3 (4 * s / 3) (s / 3) 0.
Proof.
  intros L. unfold midPoint, midValue. apply house_faces in L as [-> | ->]; rewrite ?house_sum0, ?house_sum1; unfold houseWt; house_ints; cbn [Z.eqb].
  - apply V3_eq; cbv -[Rplus Rmult Rminus Rdiv IZR Rinv]; field.
  - apply V3_eq; cbv -[Rplus Rmult Rminus Rdiv IZR Rinv]; field.
Qed.
Definition houseX (s : R) (v : Z) : R := qx (pt (housePos s) v).
Lemma house_gradient s h : liveH house h -> ~ ext house h -> fanGradient house (housePos s) houseWt (houseX s) h (mk3 1 0 0).
Proof.
  intros K X. assert (L : liveF house (fa house h)) by (apply (fa_liveF house house_valid); split; auto). unfold fanGradient, legA, legB. rewrite (house_mid s _ L). change (midValue house houseWt (houseX s) (fa house h)) with (qx (midPoint house (housePos s) houseWt (fa house h))). rewrite (house_mid s _ L).
  apply house_cases in K; auto. repeat destruct K as [K|K]; subst h; house_ints; unfold houseX; cbv -[Rplus Rmult Rminus Rdiv IZR Rinv Ropp]; repeat split; ring.
Qed.
Lemma norm3_z z : 0 <= z -> norm3d (mk3 0 0 z) = z.
Proof. intros H. unfold norm3d. cbn [qx qy qz]. replace (0 * 0 + 0 * 0 + z * z) with (z * z) by ring. apply sqrt_square. auto. Qed.
Lemma house_area s h : liveH house h -> ~ ext house h -> fanArea house (housePos s) houseWt h = s * s * (if (fa house h =? 0)%Z then 1 / 4 else 1 / 6).
Proof.
  intros K X. assert (L : liveF house (fa house h)) by (apply (fa_liveF house house_valid); split; auto). unfold fanArea, legA, legB. rewrite (house_mid s _ L). pose proof (Rle_0_sqr s) as S0. unfold Rsqr in S0.
  assert (E : cross3 (sub3 (pt (housePos s) (ve house h)) (if (fa house h =? 0)%Z then mk3 (s / 2) (s / 2) 0 else mk3 (4 * s / 3) (s / 3) 0)) (sub3 (pt (housePos s) (ve house (nx house h))) (if (fa house h =? 0)%Z then mk3 (s / 2) (s / 2) 0 else mk3 (4 * s / 3) (s / 3) 0)) = mk3 0 0 (s * s * (if (fa house h =? 0)%Z then 1 / 2 else 1 / 3))).
  { apply house_cases in K; auto. repeat destruct K as [K|K]; subst h; house_ints; cbn [Z.eqb]; apply V3_eq; cbv -[Rplus Rmult Rminus Rdiv IZR Rinv Ropp]; field. }
  rewrite E. destruct (fa house h =? 0)%Z; rewrite norm3_z by lra; field.
Qed.
Example C85_witness : Valid house /\ length (dat (housePos 1)) = Z.to_nat (vCap house) /\ cornerWeights house houseWeights houseWt /\ (forall f, liveF house f -> faceSum house houseWt f = 1) /\
  (forall h, liveH house h -> ~ ext house h -> fanGradient house (housePos 1) houseWt (houseX 1) h (mk3 1 0 0)) /\ (forall h, liveH house h -> ~ ext house h -> 1 / 10000000 < 2 * fanArea house (housePos 1) houseWt h).
Proof.
  split; [exact house_valid|]. split; [reflexivity|]. split; [exact house_weights|]. split; [exact house_weights_one|]. split; [apply house_gradient|]. intros h K X. rewrite house_area by auto. destruct (fa house h =? 0)%Z; lra.
Qed.

(** "The energy of a function is the Dirichlet energy of its extension over the fans" fails: on the square and the triangle with sides of length 1/10000, the function x has gradient
    (1, 0, 0) everywhere and energy zero. The energy of a function does not change when a surface is scaled; here it does. *)
Theorem C85_small_refuted : ~ (forall m pos wts wt L u g, Valid m -> length (dat pos) = Z.to_nat (vCap m) -> cornerWeights m wts wt -> (forall f, liveF m f -> faceSum m wt f = 1) -> simplePolygonLaplacian m pos wts = Ok L ->
  (forall h, liveH m h -> ~ ext m h -> fanGradient m pos wt u h (g h) /\ 0 < fanArea m pos wt h) -> form m L u u = Rsum (fun h => fanArea m pos wt h * dot3 (g h) (g h)) (every m ECorner)).
Proof.
  intros H. destruct (lap_ok house house_valid (housePos (1 / 10000)) eq_refl houseWeights houseWt house_weights) as (L & E & _ & _ & F).
  specialize (H house (housePos (1 / 10000)) houseWeights houseWt L (houseX (1 / 10000)) (fun _ => mk3 1 0 0) house_valid eq_refl house_weights house_weights_one E).
  assert (A : forall h, liveH house h -> ~ ext house h -> 0 < fanArea house (housePos (1 / 10000)) houseWt h /\ 2 * fanArea house (housePos (1 / 10000)) houseWt h <= 1 / 10000000) by (intros h K X; rewrite house_area by auto; destruct (fa house h =? 0)%Z; lra).
  rewrite (lap_small house house_valid (housePos (1 / 10000)) houseWt L F) in H by (intros; apply A; auto).
  assert (P : 0 < Rsum (fun h => fanArea house (housePos (1 / 10000)) houseWt h * dot3 (mk3 1 0 0) (mk3 1 0 0)) (every house ECorner)).
  { assert (EV : every house ECorner = [0; 2; 3; 4; 6; 8; 10]%Z) by (vm_compute; reflexivity). rewrite EV.
    assert (Q : forall h, In h [0; 2; 3; 4; 6; 8; 10]%Z -> 0 < fanArea house (housePos (1 / 10000)) houseWt h * dot3 (mk3 1 0 0) (mk3 1 0 0)).
    { intros h Hh. rewrite <- EV in Hh. destruct (every_corner house h house_valid Hh) as [Kh Xh]. destruct (A h Kh Xh) as [P _]. unfold dot3. cbn. lra. }
    clear - Q. unfold Rsum. cbn [fold_right map]. pose proof (Q 0%Z (or_introl eq_refl)). pose proof (Q 2%Z ltac:(cbn; tauto)). pose proof (Q 3%Z ltac:(cbn; tauto)). pose proof (Q 4%Z ltac:(cbn; tauto)). pose proof (Q 6%Z ltac:(cbn; tauto)). pose proof (Q 8%Z ltac:(cbn; tauto)). pose proof (Q 10%Z ltac:(cbn; tauto)). lra. }
  rewrite <- H in P; [lra|]. intros h K X. split; [apply house_gradient; auto|apply A; auto].
Qed.
Print Assumptions C85_small_refuted.

(** ** C86: the virtual element operators. *)
(** The Laplacian is symmetric, annihilates the constants, and its energy is the area-weighted square of the mean gradient of each face plus lambda times the squares of what the mean gradient misses
    along each side. It is positive semidefinite. *)
Theorem C86_laplacian : forall m lam pos normals areas, Valid m -> polygonData m pos normals areas ->
  exists L, polygonLaplacian m lam pos normals areas = Ok L /\ rows L = Z.to_nat (nVertices m) /\ cols L = Z.to_nat (nVertices m) /\
  (forall a b, liveV m a -> liveV m b -> entryAt 0 m EVertex EVertex L a b = entryAt 0 m EVertex EVertex L b a) /\
  (forall a, liveV m a -> Rsum (entryAt 0 m EVertex EVertex L a) (every m EVertex) = 0) /\
  (forall u w, form m L u w = Rsum (fun f => valAt areas f * dot3 (meanGradient m pos normals areas u f) (meanGradient m pos normals areas w f) + lam * faceSum m (fun h => residual m pos normals areas u h * residual m pos normals areas w h) f) (every m EFace)) /\
  (0 <= lam -> (forall f, liveF m f -> 0 <= valAt areas f) -> forall u, 0 <= form m L u u).
Proof.
  intros m lam pos normals areas V PD. destruct (plap_ok m V pos normals areas PD lam) as (L & E & RL & C & F). exists L. do 3 (split; auto). split; [|split; [|split]].
  - eapply plap_sym; eauto.
  - eapply plap_const; eauto.
  - eapply plap_form; eauto.
  - intros L0 AP u. eapply plap_psd; eauto.
Qed.
Print Assumptions C86_laplacian.

(** If the normals and areas fit the vector areas, a function that is linear over each face has exactly its Dirichlet energy, whatever lambda. *)
Theorem C86_linear_precision : forall m lam pos normals areas L u a, Valid m -> polygonData m pos normals areas -> aligned m pos normals areas -> polygonLaplacian m lam pos normals areas = Ok L ->
  (forall f, liveF m f -> dot3 (pt normals f) (a f) = 0) -> (forall h, liveH m h -> ~ ext m h -> u (ve m (nx m h)) - u (ve m h) = dot3 (a (fa m h)) (along m pos h)) ->
  form m L u u = Rsum (fun f => valAt areas f * dot3 (a f) (a f)) (every m EFace) /\ forall f, liveF m f -> meanGradient m pos normals areas u f = a f.
Proof.
  intros m lam pos normals areas L u a V PD AL E O H. destruct (plap_ok m V pos normals areas PD lam) as (L' & E' & _ & _ & F). rewrite E in E'. injection E' as <-. split.
  - apply (plap_linear m V pos normals areas AL lam L F u a O). intros h [K X]. apply H; auto.
  - intros f Lf. rewrite (MG_linear m V pos normals areas AL f u (a f) Lf); [|intros h [K X] <-; apply H; auto]. rewrite (O f Lf). apply V3_eq; cbn; ring.
Qed.
Print Assumptions C86_linear_precision.

(** The areas and normals the library computes fit the vector areas if all faces have three or four sides; the areas do for all polygons. *)
Theorem C86_areas : forall m pos, Valid m -> length (dat pos) = Z.to_nat (vCap m) ->
  exists areas, pFaceAreas m pos = Ok areas /\ length (dat areas) = Z.to_nat (fCap m - bFill m) /\ forall f, liveF m f -> valAt areas f = norm3d (areaVector m pos f).
Proof. intros m pos V LP. exact (areas_ok m V pos LP). Qed.
Print Assumptions C86_areas.
Theorem C86_normals_partial : forall m pos, Valid m -> length (dat pos) = Z.to_nat (vCap m) -> (forall f, liveF m f -> fewSided m f /\ areaVector m pos f <> mk3 0 0 0) ->
  exists areas normals, pFaceAreas m pos = Ok areas /\ faceNormals m pos = Ok normals /\ length (dat normals) = Z.to_nat (fCap m - bFill m) /\ length (dat areas) = Z.to_nat (fCap m - bFill m) /\ aligned m pos normals areas.
Proof. intros m pos V LP. exact (aligned_ok m V pos LP). Qed.
Print Assumptions C86_normals_partial.

(** The gradient matrix has three rows per face and applied to a function gives, in every face, the mean gradient with the opposite sign. *)
Theorem C86_gradient_partial : forall m pos normals areas, Valid m -> polygonData m pos normals areas ->
  exists G, polygonGradient m pos normals areas = Ok G /\ rows G = (3 * Z.to_nat (nFaces m))%nat /\ cols G = Z.to_nat (nVertices m) /\
  forall u f, liveF m f -> vectorAt m G u f = mul3 (meanGradient m pos normals areas u f) (-1).
Proof. intros m pos normals areas V PD. destruct (grad_ok m V pos normals areas PD) as (G & E & RG & CG & H). exists G. do 3 (split; auto). exact (vector_ok m V pos normals areas PD G H). Qed.
Print Assumptions C86_gradient_partial.

(** The divergence matrix is the transpose of the gradient matrix, weighted by the areas of the faces. *)
Theorem C86_divergence : forall m pos normals areas G, Valid m -> polygonData m pos normals areas -> polygonGradient m pos normals areas = Ok G ->
  exists D, polygonDivergence m pos normals areas = Ok D /\ rows D = Z.to_nat (nVertices m) /\ cols D = (3 * Z.to_nat (nFaces m))%nat /\
  forall f v k, liveF m f -> liveV m v -> (k < 3)%nat -> coeff 0 D (indexOf m EVertex v) (3 * indexOf m EFace f + k) = coeff 0 G (3 * indexOf m EFace f + k) (indexOf m EVertex v) * valAt areas f.
Proof.
  intros m pos normals areas G V PD E. destruct (grad_ok m V pos normals areas PD) as (G' & E' & _ & _ & H). rewrite E in E'. injection E' as <-. destruct (div_ok m V pos normals areas PD) as (D & ED & RD & CD & HD). exists D. do 3 (split; auto). intros f v k Lf Lv K. rewrite H, HD by auto. reflexivity.
Qed.
Print Assumptions C86_divergence.

(** *** the square and the triangle again *)
Definition houseNormals : mdata V3 := {| dat := [mk3 0 0 1; mk3 0 0 1]; dflt := mk3 0 0 0 |}.
Definition houseAreas : mdata R := {| dat := [1; 1 / 2]; dflt := 0 |}.
Lemma house_data : polygonData house (housePos 1) houseNormals houseAreas.
Proof. do 3 (split; [reflexivity|]). intros h K X. apply house_cases in K; auto. repeat destruct K as [K|K]; subst h; vm_compute; discriminate. Qed.
Lemma house_vector s f : liveF house f -> areaVector house (housePos s) f = mk3 0 0 (s * s * if (f =? 0)%Z then 1 else 1 / 2).
Proof. intros L. unfold areaVector, faceVsum. apply house_faces in L as [-> | ->]; rewrite ?house_sum0, ?house_sum1; house_ints; cbn [Z.eqb]; apply V3_eq; cbv -[Rplus Rmult Rminus Rdiv IZR Rinv Ropp]; field. Qed.
Lemma house_aligned : aligned house (housePos 1) houseNormals houseAreas.
Proof.
  intros f L. rewrite house_vector by auto. apply house_faces in L as [-> | ->].
  - split; [unfold valAt, at_; cbv -[Rlt IZR Rdiv]; lra|]. split; [unfold norm2_3; cbv -[Rplus Rmult IZR]; ring|]. apply V3_eq; cbv -[Rplus Rmult Rminus Rdiv IZR Rinv Ropp]; field.
  - split; [unfold valAt, at_; cbv -[Rlt IZR Rdiv]; lra|]. split; [unfold norm2_3; cbv -[Rplus Rmult IZR]; ring|]. apply V3_eq; cbv -[Rplus Rmult Rminus Rdiv IZR Rinv Ropp]; field.
Qed.
Lemma house_linear h : liveH house h -> ~ ext house h -> houseX 1 (ve house (nx house h)) - houseX 1 (ve house h) = dot3 (mk3 1 0 0) (along house (housePos 1) h).
Proof. intros K X. apply house_cases in K; auto. unfold along. repeat destruct K as [K|K]; subst h; (repeat match goal with |- context [tw ?x] => let v := eval vm_compute in (tw x) in change (tw x) with v end); house_ints; unfold houseX; cbv -[Rplus Rmult Rminus Rdiv IZR Rinv Ropp]; ring. Qed.
Lemma house_few f : liveF house f -> fewSided house f /\ areaVector house (housePos 1) f <> mk3 0 0 0.
Proof.
  intros L. split.
  - intros h K F. assert (X : ~ ext house h) by (unfold ext; apply house_faces in L as [-> | ->]; rewrite F; vm_compute; congruence). clear F. apply house_cases in K; auto. repeat destruct K as [K|K]; subst h; vm_compute; auto.
  - rewrite house_vector by auto. intros Q. injection Q as Q. destruct (f =? 0)%Z; lra.
Qed.
Example C86_witness : Valid house /\ polygonData house (housePos 1) houseNormals houseAreas /\ aligned house (housePos 1) houseNormals houseAreas /\ (forall f, liveF house f -> fewSided house f /\ areaVector house (housePos 1) f <> mk3 0 0 0) /\
  (forall f, liveF house f -> dot3 (pt houseNormals f) (mk3 1 0 0) = 0) /\ (forall h, liveH house h -> ~ ext house h -> houseX 1 (ve house (nx house h)) - houseX 1 (ve house h) = dot3 (mk3 1 0 0) (along house (housePos 1) h)).
Proof.
  split; [exact house_valid|]. split; [exact house_data|]. split; [exact house_aligned|]. split; [exact house_few|]. split; [|exact house_linear].
  intros f L. apply house_faces in L as [-> | ->]; cbv -[Rplus Rmult IZR]; ring.
Qed.

(** "The gradient matrix gives the gradient" fails: on the square and the triangle, of which normals and areas are as they should be, it gives (-1, 0, 0) for the function x. *)
Theorem C86_gradient_refuted : ~ (forall m pos normals areas G u a, Valid m -> polygonData m pos normals areas -> aligned m pos normals areas -> polygonGradient m pos normals areas = Ok G ->
  (forall f, liveF m f -> dot3 (pt normals f) (a f) = 0) -> (forall h, liveH m h -> ~ ext m h -> u (ve m (nx m h)) - u (ve m h) = dot3 (a (fa m h)) (along m pos h)) ->
  forall f, liveF m f -> vectorAt m G u f = a f).
Proof.
  intros H. destruct C86_witness as (V & PD & AL & _ & O & D). destruct (C86_gradient_partial house (housePos 1) houseNormals houseAreas V PD) as (G & E & _ & _ & HG). assert (L0 : liveF house 0) by (vm_compute; intuition congruence).
  specialize (H house (housePos 1) houseNormals houseAreas G (houseX 1) (fun _ => mk3 1 0 0) V PD AL E O D 0%Z L0). rewrite HG in H by auto.
  destruct (C86_laplacian house 1 (housePos 1) houseNormals houseAreas V PD) as (L & EL & _). destruct (C86_linear_precision house 1 (housePos 1) houseNormals houseAreas L (houseX 1) (fun _ => mk3 1 0 0) V PD AL EL O D) as [_ M]. rewrite M in H by auto. unfold mul3 in H. cbn in H. injection H as H. lra.
Qed.
Print Assumptions C86_gradient_refuted.

(** "The normal of a polygon points to the side from which the polygon runs counterclockwise" fails for more than four sides: a star in the plane with three points and three
    reflex corners, running counterclockwise around its area of 1470, has the computed normal (0, 0, -1). *)
Definition star := built [[0; 1; 2; 3; 4; 5]]%Z.
Definition starPos : mdata V3 := {| dat := [mk3 60 0 0; mk3 5 8 0; mk3 (-30) 50 0; mk3 (-10) 0 0; mk3 (-30) (-50) 0; mk3 5 (-8) 0]; dflt := mk3 0 0 0 |}.
Lemma star_valid : Valid star. Proof. apply validb_Valid. vm_compute. reflexivity. Qed.
Theorem C86_normals_refuted : Valid star /\ length (dat starPos) = Z.to_nat (vCap star) /\ liveF star 0 /\ areaVector star starPos 0 = mk3 0 0 1470 /\
  exists normals, faceNormals star starPos = Ok normals /\ pt normals 0 = mk3 0 0 (-1).
Proof.
  split; [exact star_valid|]. split; [reflexivity|]. assert (L0 : liveF star 0) by (vm_compute; intuition congruence). split; [exact L0|]. 
  assert (S : forall g, faceSum star g 0 = g 0%Z + (g 2%Z + (g 4%Z + (g 6%Z + (g 8%Z + g 10%Z))))).
  { intros g. unfold faceSum. assert (E : filter (fun h => (fa star h =? 0)%Z) (every star ECorner) = [0; 2; 4; 6; 8; 10]%Z) by (vm_compute; reflexivity). rewrite E. unfold Rsum. cbn. ring. }
  split.
  - unfold areaVector, faceVsum. rewrite !S. repeat match goal with
      | |- context [nx star ?x] => let v := eval vm_compute in (nx star x) in change (nx star x) with v
      | |- context [ve star ?x] => let v := eval vm_compute in (ve star x) in change (ve star x) with v end. apply V3_eq; cbv -[Rplus Rmult Rminus Rdiv IZR Rinv Ropp]; field.
  - destruct (normals_ok star star_valid starPos eq_refl) as (d & E & _ & H). exists d. split; [exact E|]. rewrite (H 0%Z L0). assert (FL : fl star 0 = [0; 2; 4; 6; 8; 10]%Z) by (vm_compute; reflexivity). rewrite FL. cbn [nsum]. unfold corner. repeat match goal with
      | |- context [nx star ?x] => let v := eval vm_compute in (nx star x) in change (nx star x) with v
      | |- context [ve star ?x] => let v := eval vm_compute in (ve star x) in change (ve star x) with v end. cbn [Z.eqb Pos.eqb].
    match goal with |- normalize3 ?x = _ => assert (Q : x = mk3 0 0 (-3360)) by (apply V3_eq; cbv -[Rplus Rmult Rminus Rdiv IZR Rinv Ropp]; ring) end. rewrite Q.
    unfold normalize3. cbn [qx qy qz]. replace (0 * 0 + 0 * 0 + -3360 * -3360) with (3360 * 3360) by ring. rewrite sqrt_square by lra. apply V3_eq; cbn; field.
Qed.
Print Assumptions C86_normals_refuted.
