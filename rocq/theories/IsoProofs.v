(** Proofs about marchingTriangles *)
From Verif Require Import Base MeshModel MeshSpec MeshOpSpec MeshBase PointModel PointSpec PointProofs GeoModel GeoSpec GeoProofs BaryModel BarySpec BaryProofs MarchModel MarchSpec MarchProofs.
From Coq Require Import Reals Lra Permutation.
Open Scope Z_scope.

Lemma Reqb_spec a b : reflect (a = b) (Reqb a b).
Proof. unfold Reqb. destruct (Req_EM_T a b); constructor; auto. Qed.
Lemma pointEqb_ok p q : pointEqb p q = true <-> p = q.
Proof.
  destruct p as [v|e t|f x y z], q as [w|e' t'|f' x' y' z']; cbn; try (split; [discriminate|congruence]).
  - rewrite Z.eqb_eq. split; congruence.
  - rewrite andb_true_iff, Z.eqb_eq. destruct (Reqb_spec t t'); (split; [intros (X & Y); congruence|intros X; inversion X; subst; split; congruence]).
  - rewrite !andb_true_iff, Z.eqb_eq. destruct (Reqb_spec x x'), (Reqb_spec y y'), (Reqb_spec z z');
      (split; [intros (X & (Y1 & Y2) & Y3); congruence|intros X; inversion X; subst; repeat split; congruence]).
Qed.
Lemma findNode_ok p nodes i : match findNode p nodes i with Some k => (i <= k)%nat /\ nth_error nodes (k - i) = Some p | None => ~ In p nodes end.
Proof.
  revert i. induction nodes as [|q r IH]; intros i; cbn [findNode]; [intros []|]. destruct (pointEqb q p) eqn:E.
  - apply pointEqb_ok in E. subst. split; auto. rewrite Nat.sub_diag. reflexivity.
  - specialize (IH (S i)). destruct (findNode p r (S i)) as [k|].
    + destruct IH as (L & K). split; [lia|]. replace (k - i)%nat with (S (k - S i)) by lia. exact K.
    + intros [->|H]; [|auto]. rewrite (proj2 (pointEqb_ok p p) eq_refl) in E. discriminate.
Qed.
Lemma addNode_ok p nodes : NoDup nodes -> exists x i, addNode nodes p = (nodes ++ x, i) /\ NoDup (nodes ++ x) /\ nth_error (nodes ++ x) i = Some p.
Proof.
  intros ND. unfold addNode. pose proof (findNode_ok p nodes 0) as H. destruct (findNode p nodes 0) as [k|].
  - exists [], k. rewrite app_nil_r. split; auto. split; auto. destruct H as (_ & H). rewrite Nat.sub_0_r in H. exact H.
  - exists [p], (length nodes). split; auto. split.
    + apply NoDup_rev in ND. rewrite <- (rev_involutive (nodes ++ [p])). apply NoDup_rev. rewrite rev_app_distr. cbn. constructor; auto. intros X. apply in_rev in X. auto.
    + rewrite nth_error_app2, Nat.sub_diag by auto. reflexivity.
Qed.

Lemma turn90 v : turn (PI / 2) v = mk2 (- py v) (px v).
Proof. unfold turn. rewrite cos_PI2, sin_PI2. f_equal; ring. Qed.

Section I.
Context (m : mesh) (V : Valid m) (T : triangular m) (len u : Z -> R) (iso : R).
Hypothesis NV : forall v, liveV m v -> u v <> iso.
Let CN := va_cn m V.
Definition low (v : Z) : bool := if Rlt_dec (u v) iso then true else false.
Definition tOf (e : Z) : R := ((iso - u (ve m (2 * e))) / (u (ve m (tw (2 * e))) - u (ve m (2 * e))))%R.
Definition cr (h : Z) : point := PEdge (edge h) (tOf (edge h)).
Definition crossb (h : Z) : bool := xorb (low (ve m h)) (low (ve m (tw h))).

Lemma low_t v : low v = true <-> (u v < iso)%R.
Proof. unfold low. destruct (Rlt_dec (u v) iso); split; auto; discriminate. Qed.
Lemma low_f v : liveV m v -> low v = false <-> (iso < u v)%R.
Proof. intros L. specialize (NV v L). unfold low. destruct (Rlt_dec (u v) iso); split; auto; try discriminate; intros; lra. Qed.
Lemma hve h : liveH m h -> liveV m (ve m h).
Proof. intros L. apply (cn_ve _ CN). auto. Qed.
Lemma rises_iff h : liveH m h -> rises m u iso h <-> low (ve m h) = true /\ low (ve m (tw h)) = false.
Proof. intros L. unfold rises. rewrite low_t, low_f by (apply hve, (cn_tw _ CN); auto). tauto. Qed.
Lemma falls_iff h : liveH m h -> falls m u iso h <-> low (ve m h) = false /\ low (ve m (tw h)) = true.
Proof. intros L. unfold falls. rewrite low_t, low_f by (apply hve; auto). tauto. Qed.

Lemma hit_eq u0 u1 e hits : (u0 <> iso -> u1 <> iso ->
  (if Reqb (Rmin u0 u1) (Rmax u0 u1) then hits else
   let t := (iso - Rmin u0 u1) / (Rmax u0 u1 - Rmin u0 u1) in
   let t := if Rgt_dec u0 u1 then 1 - t else t in
   if Rle_dec t 1 then if Rge_dec t 0 then hits ++ [PEdge e t] else hits else hits) =
  if xorb (if Rlt_dec u0 iso then true else false) (if Rlt_dec u1 iso then true else false) then hits ++ [PEdge e ((iso - u0) / (u1 - u0))] else hits)%R.
Proof.
  intros N0 N1. destruct (Rtotal_order u0 u1) as [L|[->|L]].
  - rewrite (Rmin_left u0 u1), (Rmax_right u0 u1) by lra. destruct (Reqb_spec u0 u1); [lra|]. cbv zeta. destruct (Rgt_dec u0 u1); [lra|].
    assert (I : (0 < / (u1 - u0))%R) by (apply Rinv_0_lt_compat; lra). assert (U : ((u1 - u0) * / (u1 - u0) = 1)%R) by (apply Rinv_r; lra).
    set (k := (/ (u1 - u0))%R) in *. unfold Rdiv. fold k.
    destruct (Rlt_dec u0 iso), (Rlt_dec u1 iso); cbn [xorb]; destruct (Rle_dec ((iso - u0) * k) 1), (Rge_dec ((iso - u0) * k) 0); auto; exfalso; nra.
  - rewrite (Rmin_left u1 u1), (Rmax_right u1 u1) by lra. destruct (Reqb_spec u1 u1); [|lra]. destruct (Rlt_dec u1 iso); reflexivity.
  - rewrite (Rmin_right u0 u1), (Rmax_left u0 u1) by lra. destruct (Reqb_spec u1 u0); [lra|]. cbv zeta. destruct (Rgt_dec u0 u1); [|lra].
    replace (1 - (iso - u1) / (u0 - u1))%R with ((iso - u0) / (u1 - u0))%R by (field; lra).
    replace ((iso - u0) / (u1 - u0))%R with ((u0 - iso) * / (u0 - u1))%R by (field; lra).
    assert (I : (0 < / (u0 - u1))%R) by (apply Rinv_0_lt_compat; lra). assert (U : ((u0 - u1) * / (u0 - u1) = 1)%R) by (apply Rinv_r; lra).
    set (k := (/ (u0 - u1))%R) in *.
    destruct (Rlt_dec u0 iso), (Rlt_dec u1 iso); cbn [xorb]; destruct (Rle_dec ((u0 - iso) * k) 1), (Rge_dec ((u0 - iso) * k) 0); auto; exfalso; nra.
Qed.

Lemma xorb_half h : liveH m h -> crossb (2 * edge h) = crossb h.
Proof. intros L. unfold crossb. destruct (half_cases h (edge h) eq_refl) as [E|E]; [rewrite <- E; auto|]. rewrite E at 3 4. rewrite tw_tw. apply xorb_comm. Qed.
Lemma cr_at h : liveH m h -> crossb h = true -> crossAt m u iso h (cr h).
Proof.
  intros L C. exists (tOf (edge h)). split; [reflexivity|]. rewrite <- (xorb_half h L) in C. unfold crossb, low in C. unfold cr, tOf, valueAt. cbn [weights fold_right].
  set (a := u (ve m (2 * edge h))) in *. set (b := u (ve m (tw (2 * edge h)))) in *.
  assert (Le : liveH m (2 * edge h)) by (apply (half_live m V); auto).
  assert (N0 : a <> iso) by (apply NV, hve; auto). assert (N1 : b <> iso) by (apply NV, hve, (cn_tw _ CN); auto).
  assert (Nb : (b - a <> 0)%R) by (destruct (Rlt_dec a iso), (Rlt_dec b iso); cbn in C; try discriminate; lra).
  split; [|field; auto].
  destruct (Rlt_dec a iso), (Rlt_dec b iso); cbn in C; try discriminate.
  - split; [apply Rdiv_lt_0_compat; lra|]. apply (Rmult_lt_reg_r (b - a)); [lra|]. unfold Rdiv. rewrite Rmult_assoc, Rinv_l by auto. lra.
  - replace ((iso - a) / (b - a))%R with ((a - iso) / (a - b))%R by (field; lra). split; [apply Rdiv_lt_0_compat; lra|]. apply (Rmult_lt_reg_r (a - b)); [lra|]. unfold Rdiv. rewrite Rmult_assoc, Rinv_l by lra. lra.
Qed.
Lemma cr_value h d : liveH m h -> crossb h = true ->
  valueAt m d (cr h) = (d (ve m h) + (iso - u (ve m h)) / (u (ve m (tw h)) - u (ve m h)) * (d (ve m (tw h)) - d (ve m h)))%R.
Proof.
  intros L C. assert (N0 := NV _ (hve _ L)). assert (N1 := NV _ (hve _ (cn_tw _ CN _ L))). unfold crossb, low in C.
  assert (Nb : (u (ve m (tw h)) - u (ve m h) <> 0)%R) by (destruct (Rlt_dec (u (ve m h)) iso), (Rlt_dec (u (ve m (tw h))) iso); cbn in C; try discriminate; lra).
  unfold cr, tOf, valueAt. cbn [weights fold_right]. set (e := edge h). destruct (half_cases h e eq_refl) as [E|E].
  - rewrite <- E. field. auto.
  - assert (E' : 2 * e = tw h) by (rewrite E, tw_tw; auto). rewrite E', tw_tw. field. split; auto. lra.
Qed.

(** ** one face *)
Definition layout (P : Z -> V2) f := lengths2 m len P f /\ ccw m P f.
Lemma scan_ok f hs hits gx gy gz : liveF m f -> (forall h, In h hs -> liveH m h /\ fa m h = f) -> (gx + gy + gz = 0)%R ->
  exists x y z, scanFace m len u iso f hs hits (BFace f gx gy gz) = Ok (hits ++ map cr (filter crossb hs), BFace f x y z) /\ (x + y + z = 0)%R /\
    forall P, layout P f -> embed2 m P (BFace f x y z) =
      (mk2 (px (embed2 m P (BFace f gx gy gz)) - fold_right (fun h s => u (ve m h) * (py (P (ve m (nx m (nx m h)))) - py (P (ve m (nx m h)))) + s) 0 hs)
          (py (embed2 m P (BFace f gx gy gz)) + fold_right (fun h s => u (ve m h) * (px (P (ve m (nx m (nx m h)))) - px (P (ve m (nx m h)))) + s) 0 hs))%R.
Proof.
  intros F. revert hits gx gy gz. induction hs as [|h hs IH]; intros hits gx gy gz H S; cbn [scanFace].
  - exists gx, gy, gz. cbn [filter map fold_right]. rewrite app_nil_r. split; [reflexivity|]. split; auto. intros P _. destruct (embed2 m P (BFace f gx gy gz)) as [a b]; cbn [px py]. f_equal; ring.
  - destruct (H h (or_introl eq_refl)) as (L & Fh). assert (Le : liveH m (2 * edge h)) by (apply (half_live m V); auto). change (eHe (edge h)) with (2 * edge h).
    rewrite (p_vert m V) by auto. cbn [bind]. rewrite (p_next m V) by auto. cbn [bind]. rewrite (p_vert m V) by (apply (cn_nx _ CN); auto). cbn [bind]. rewrite (cn_vnx _ CN _ Le).
    assert (N0 := NV _ (hve _ Le)). assert (N1 := NV _ (hve _ (cn_tw _ CN _ Le))).
    assert (Q : Reqb (Rmin (u (ve m (2 * edge h))) (u (ve m (tw (2 * edge h))))) (Rmax (u (ve m (2 * edge h))) (u (ve m (tw (2 * edge h))))) &&
                Reqb (Rmin (u (ve m (2 * edge h))) (u (ve m (tw (2 * edge h))))) iso = false).
    { apply andb_false_iff. right. destruct (Reqb_spec (Rmin (u (ve m (2 * edge h))) (u (ve m (tw (2 * edge h))))) iso); auto. exfalso. revert e. apply Rmin_case; auto. }
    rewrite Q, hit_eq by auto. clear Q.
    change (xorb _ _) with (crossb (2 * edge h)). rewrite xorb_half by auto.
    rewrite (p_next m V) by auto. cbn [bind]. assert (L1 := cn_nx _ CN _ L). assert (F1 : fa m (nx m h) = f) by (rewrite (cn_fnx _ CN); auto).
    destruct (bvHalfedge_ok m V (nx m h) f T L1 F) as (b & -> & Eb & Zb & Cb); [exists (nx m h); auto|]. destruct b as [|? ? ?|g bx by' bz]; try discriminate. cbn [elemOfV] in Eb. injection Eb as ->. cbn [zeroSum] in Zb.
    cbn [bind bvRotate90]. destruct (faceRotate90_ok m V len f bx by' bz T F Zb) as (x' & y' & z' & -> & Z' & R'). cbn [bind].
    rewrite (p_vert m V) by auto. cbn [bind bvScale]. unfold bvAdd, bvCombine. cbn [elemOfV bvSharedEdge bvSharedFace bind bvInFace]. rewrite ?Z.eqb_refl. cbn [bind bvInFace]. rewrite ?Z.eqb_refl. cbn [bind].
    destruct (IH (if crossb h then hits ++ [PEdge (edge h) (tOf (edge h))] else hits) (gx + x' * u (ve m h))%R (gy + y' * u (ve m h))%R (gz + z' * u (ve m h))%R) as (x & y & z & E & Z & R).
    { intros k Hk. apply H. right. auto. } { nra. }
    exists x, y, z. unfold tOf in E. rewrite E. split; [|split; auto].
    + f_equal. f_equal. cbn [filter]. destruct (crossb h); cbn [map]; auto. rewrite <- app_assoc. reflexivity.
    + intros P LP. rewrite (R P LP). specialize (R' P (proj1 LP) (proj2 LP)). rewrite turn90 in R'. unfold embed2 in R' |- *. cbn [px py] in *. assert (Rx := f_equal px R'). assert (Ry := f_equal py R'). cbn [px py] in Rx, Ry. clear R'.
      rewrite (Cb (fun v => py (P v))) in Rx. rewrite (Cb (fun v => px (P v))) in Ry. rewrite <- (cn_vnx _ CN _ L1) in Rx, Ry. cbn [change fold_right] in *. f_equal.
      * rewrite <- (Ropp_involutive (py (P (ve m (nx m (nx m h)))) - py (P (ve m (nx m h))))), <- Rx. ring.
      * rewrite <- Ry. ring.
Qed.

Hypothesis ES : edgeSimple m.
Lemma edges_differ h k : liveH m h -> liveH m k -> liveF m (fa m h) -> fa m h = fa m k -> h <> k -> edge h <> edge k.
Proof.
  intros L L' F E N X. destruct (proj1 (edge_eq h k) X) as [Y|Y]; [auto|]. apply (proj1 ES h L F). rewrite E, Y, tw_tw. reflexivity.
Qed.
Definition flat (P : Z -> V2) (v : Z) : V3 := mk3 (px (P v)) (py (P v)) 0.
Lemma flat_lengths P f : lengths2 m len P f -> lengths3 m len (flat P) f.
Proof. intros H h L F. rewrite (H h L F). unfold dist2, dist3, flat. cbn [qx qy qz]. f_equal. unfold Rsqr. ring. Qed.
Definition finish f nodes edges p q gradient : res (list point * list seg) :=
  let '(nodes, i) := addNode nodes p in
  let '(nodes, j) := addNode nodes q in
  let* tangent := bvBetween m p q in
  let* tf := bvInFace m tangent f in
  let* r := bvRotate90 m len tf in
  let normal := bvNeg r in
  let* d := bvDot m len normal gradient in
  Ok (nodes, edges ++ [if Rgt_dec d 0 then (i, j) else (j, i)]).
Lemma finish_ok f h k nodes edges gx gy gz P wx wy c : liveF m f -> liveH m h -> liveH m k -> fa m h = f -> fa m k = f -> h <> k ->
  crossb h = true -> crossb k = true -> NoDup nodes -> (gx + gy + gz = 0)%R -> layout P f ->
  embed2 m P (BFace f gx gy gz) = mk2 (- wy) wx -> (0 < wx * wx + wy * wy)%R -> (c <> 0)%R ->
  (valueAt m (fun v => px (P v)) (cr k) - valueAt m (fun v => px (P v)) (cr h) = c * wx)%R ->
  (valueAt m (fun v => py (P v)) (cr k) - valueAt m (fun v => py (P v)) (cr h) = c * wy)%R ->
  exists x i j, finish f nodes edges (cr h) (cr k) (BFace f gx gy gz) = Ok (nodes ++ x, edges ++ [if Rlt_dec c 0 then (i, j) else (j, i)]) /\
    NoDup (nodes ++ x) /\ nth_error (nodes ++ x) i = Some (cr h) /\ nth_error (nodes ++ x) j = Some (cr k).
Proof.
  intros F L L' Fh Fk N C C' ND G LP EG W NC EX EY. unfold finish.
  destruct (addNode_ok (cr h) nodes ND) as (x1 & i & -> & ND1 & I1). destruct (addNode_ok (cr k) _ ND1) as (x2 & j & -> & ND2 & J2).
  rewrite <- app_assoc in *. assert (I2 : nth_error (nodes ++ x1 ++ x2) i = Some (cr h)).
  { rewrite app_assoc. rewrite nth_error_app1; auto. apply nth_error_Some. congruence. }
  assert (NE : edge h <> edge k) by (apply edges_differ; auto; congruence).
  assert (Lh : liveH m (2 * edge h)) by (apply (half_live m V); auto). assert (Lk : liveH m (2 * edge k)) by (apply (half_live m V); auto).
  unfold bvBetween. cbn [cr elemOf sharedEdge]. rewrite (proj2 (Z.eqb_neq (edge h) (edge k))) by auto. cbn [bind].
  destruct (sharedFace_ok m V (EE (edge h)) (EE (edge k)) Lh Lk) as (r & -> & K). cbn [bind].
  assert (Th : touches m (EE (edge h)) f) by (exists h; auto). assert (Tk : touches m (EE (edge k)) f) by (exists k; auto).
  destruct r as [g|]; [|exfalso; apply (K f F); auto]. destruct K as (Lg & K1 & K2).
  assert (g = f) as -> by (apply (proj2 ES (edge h) (edge k)); auto).
  destruct (proj1 (inFace_ok m V (cr h) f T Lh F) Th) as (x & y & z & E1 & S1). destruct (proj1 (inFace_ok m V (cr k) f T Lk F) Tk) as (x' & y' & z' & E2 & S2).
  change (PEdge (edge h) (tOf (edge h))) with (cr h). change (PEdge (edge k) (tOf (edge k))) with (cr k). rewrite E1, E2. cbn [bind bvInFace]. rewrite Z.eqb_refl. cbn [bind bvRotate90].
  assert (CH : forall d, change m d (BFace f (x' - x) (y' - y) (z' - z)) = (valueAt m d (cr k) - valueAt m d (cr h))%R).
  { intros d. rewrite <- (S1 d), <- (S2 d). unfold valueAt. cbn [change weights fold_right]. ring. }
  assert (Z0 : ((x' - x) + (y' - y) + (z' - z) = 0)%R).
  { pose proof (CH (fun _ => 1%R)) as X. unfold cr, valueAt in X. cbn [change weights fold_right] in X. lra. }
  destruct (faceRotate90_ok m V len f _ _ _ T F Z0) as (a & b & c' & -> & Z1 & R). cbn [bind bvNeg].
  destruct (proj1 (dot_ok m V len (BFace f (- a) (- b) (- c')) (BFace f gx gy gz) T F F ltac:(cbn; lra) G) ltac:(exists f; cbn; auto)) as (d & f' & -> & Lf & Tf & _ & D).
  cbn [bind elemOfV touches] in *. subst f'. specialize (D _ (flat_lengths P f (proj1 LP))).
  specialize (R P (proj1 LP) (proj2 LP)). rewrite turn90 in R.
  assert (R1 := f_equal px R). assert (R2 := f_equal py R). assert (G1 := f_equal px EG). assert (G2 := f_equal py EG). unfold embed2 in R1, R2, G1, G2. cbn [px py] in *.
  rewrite CH, EY in R1. rewrite CH, EX in R2.
  assert (Dd : (d = - c * (wx * wx + wy * wy))%R).
  { rewrite D. unfold inner3, embed3, flat. cbn [qx qy qz change] in *.
    transitivity ((- (a * px (P (ve m (fh m f))) + b * px (P (ve m (nx m (fh m f)))) + c' * px (P (ve m (nx m (nx m (fh m f))))))) *
      (gx * px (P (ve m (fh m f))) + gy * px (P (ve m (nx m (fh m f)))) + gz * px (P (ve m (nx m (nx m (fh m f)))))) +
      (- (a * py (P (ve m (fh m f))) + b * py (P (ve m (nx m (fh m f)))) + c' * py (P (ve m (nx m (nx m (fh m f))))))) *
      (gx * py (P (ve m (fh m f))) + gy * py (P (ve m (nx m (fh m f)))) + gz * py (P (ve m (nx m (nx m (fh m f)))))))%R; [ring|]. rewrite R1, R2, G1, G2. ring. }
  exists (x1 ++ x2), i, j. split; [|auto]. f_equal. f_equal. f_equal. f_equal.
  destruct (Rgt_dec d 0), (Rlt_dec c 0); auto; exfalso; nra.
Qed.

Lemma lone uX uY uZ X Y Z : (uX - uY <> 0 -> uX - uZ <> 0 ->
  (X + (iso - uX) / (uY - uX) * (Y - X)) - (Z + (iso - uZ) / (uX - uZ) * (X - Z)) = (iso - uX) / ((uX - uY) * (uX - uZ)) * (uX * (Z - Y) + uY * (X - Z) + uZ * (Y - X)))%R.
Proof. intros. field. repeat split; lra. Qed.
Lemma w_pos ax ay bx by' cx cy uA uB uC : (0 < (bx - ax) * (cy - ay) - (by' - ay) * (cx - ax) -> uA <> uB \/ uC <> uA ->
  let wx := uA * (cx - bx) + uB * (ax - cx) + uC * (bx - ax) in let wy := uA * (cy - by') + uB * (ay - cy) + uC * (by' - ay) in 0 < wx * wx + wy * wy)%R.
Proof.
  intros A N. cbv zeta. set (wx := (uA * (cx - bx) + uB * (ax - cx) + uC * (bx - ax))%R). set (wy := (uA * (cy - by') + uB * (ay - cy) + uC * (by' - ay))%R).
  assert (I1 : (((bx - ax) * (cy - ay) - (by' - ay) * (cx - ax)) * (uC - uA) = wx * (cy - ay) - wy * (cx - ax))%R) by (unfold wx, wy; ring).
  assert (I2 : (((bx - ax) * (cy - ay) - (by' - ay) * (cx - ax)) * (uA - uB) = (bx - ax) * wy - (by' - ay) * wx)%R) by (unfold wx, wy; ring).
  destruct (Req_dec wx 0) as [X|X]; [destruct (Req_dec wy 0) as [Y|Y]|]; [|nra|nra]. exfalso. rewrite X, Y in I1, I2. destruct N; nra.
Qed.

(** what a face adds *)
Lemma marchFace_ok f nodes edges P : liveF m f -> layout P f -> NoDup nodes ->
  (~ crossed m u iso f /\ marchFace m len u iso (nodes, edges) f = Ok (nodes, edges)) \/
  (crossed m u iso f /\ exists x i j p q, marchFace m len u iso (nodes, edges) f = Ok (nodes ++ x, edges ++ [(i, j)]) /\
     NoDup (nodes ++ x) /\ nth_error (nodes ++ x) i = Some p /\ nth_error (nodes ++ x) j = Some q /\ isoSegment m u iso f p q).
Proof.
  intros F LP ND. destruct (tri_facts m V f T F) as (La & Lb & Lc & Fa & Fb & Fc & N3 & V0 & V1 & V2).
  unfold marchFace. rewrite (tri_list m V) by auto. cbn [bind].
  assert (Hf : forall h, liveH m h -> fa m h = f -> h = fh m f \/ h = nx m (fh m f) \/ h = nx m (nx m (fh m f))).
  { intros h L E. apply (tri_three m V); auto; [apply (liveF_not_ext m); rewrite ?Fa; auto|congruence]. }
  set (a := fh m f) in *. set (b := nx m a) in *. set (c := nx m b) in *.
  assert (Dab : a <> b). { intros X. assert (Nx : ~ ext m a) by (apply (liveF_not_ext m); [auto|rewrite Fa; auto]). destruct (T a La Nx) as (_ & _ & Y). apply Y. symmetry. exact X. }
  assert (Dbc : b <> c). { intros X. assert (Nx : ~ ext m b) by (apply (liveF_not_ext m); [auto|rewrite Fb; auto]). destruct (T b Lb Nx) as (_ & _ & Y). apply Y. symmetry. exact X. }
  assert (Dca : a <> c). { intros X. assert (Nx : ~ ext m c) by (apply (liveF_not_ext m); [auto|rewrite Fc; auto]). destruct (T c Lc Nx) as (_ & _ & Y). apply Y. rewrite N3. exact X. }
  destruct (scan_ok f [a; b; c] [] 0 0 0 F) as (gx & gy & gz & -> & G & EG). { intros h [<-|[<-|[<-|[]]]]; auto. } { ring. }
  cbn [bind app]. specialize (EG P LP). fold b c in EG. cbn [fold_right] in EG. fold b c in EG. rewrite N3 in EG. fold b in EG.
  unfold embed2 in EG at 2 3. cbn [change px py] in EG. fold a b c in EG. cbn [filter].
  assert (AR := proj2 LP). unfold ccw, area2 in AR. fold a b c in AR.
  assert (NA := NV _ (hve _ La)). assert (NB := NV _ (hve _ Lb)). assert (NC := NV _ (hve _ Lc)).
  assert (Ca : crossb a = xorb (low (ve m a)) (low (ve m b))) by (unfold crossb; rewrite V0; auto).
  assert (Cb : crossb b = xorb (low (ve m b)) (low (ve m c))) by (unfold crossb; rewrite V1; auto).
  assert (Cc : crossb c = xorb (low (ve m c)) (low (ve m a))) by (unfold crossb; rewrite V2; auto).
  assert (Ra := rises_iff a La). assert (Rb := rises_iff b Lb). assert (Rc := rises_iff c Lc).
  assert (Fla := falls_iff a La). assert (Flb := falls_iff b Lb). assert (Flc := falls_iff c Lc). rewrite V0 in Ra, Fla. rewrite V1 in Rb, Flb. rewrite V2 in Rc, Flc.
  assert (Ka := fun X => cr_at a La X). assert (Kb := fun X => cr_at b Lb X). assert (Kc := fun X => cr_at c Lc X).
  assert (Va := fun d X => cr_value a d La X). assert (Vb := fun d X => cr_value b d Lb X). assert (Vc := fun d X => cr_value c d Lc X). rewrite V0 in Va. rewrite V1 in Vb. rewrite V2 in Vc.
  set (uA := u (ve m a)) in *. set (uB := u (ve m b)) in *. set (uC := u (ve m c)) in *.
  set (wx := (uA * (px (P (ve m c)) - px (P (ve m b))) + uB * (px (P (ve m a)) - px (P (ve m c))) + uC * (px (P (ve m b)) - px (P (ve m a))))%R).
  set (wy := (uA * (py (P (ve m c)) - py (P (ve m b))) + uB * (py (P (ve m a)) - py (P (ve m c))) + uC * (py (P (ve m b)) - py (P (ve m a))))%R).
  assert (EW : embed2 m P (BFace f gx gy gz) = mk2 (- wy) wx) by (rewrite EG; f_equal; unfold wx, wy; ring).
  assert (WP : uA <> uB \/ uC <> uA -> (0 < wx * wx + wy * wy)%R) by (intros X; unfold wx, wy; apply w_pos; auto).
  assert (Done : forall h k c0, liveH m h -> liveH m k -> fa m h = f -> fa m k = f -> h <> k -> crossb h = true -> crossb k = true -> (uA <> uB \/ uC <> uA) ->
     (valueAt m (fun v => px (P v)) (cr k) - valueAt m (fun v => px (P v)) (cr h) = c0 * wx)%R -> (valueAt m (fun v => py (P v)) (cr k) - valueAt m (fun v => py (P v)) (cr h) = c0 * wy)%R ->
     ((c0 < 0)%R /\ isoSegment m u iso f (cr h) (cr k) \/ (0 < c0)%R /\ isoSegment m u iso f (cr k) (cr h)) ->
     exists x i j p q, finish f nodes edges (cr h) (cr k) (BFace f gx gy gz) = Ok (nodes ++ x, edges ++ [(i, j)]) /\
     NoDup (nodes ++ x) /\ nth_error (nodes ++ x) i = Some p /\ nth_error (nodes ++ x) j = Some q /\ isoSegment m u iso f p q).
  { intros h k c0 Lh Lk Fh Fk N X Y U EX EY S. assert (c0 <> 0)%R by (destruct S; lra).
    destruct (finish_ok f h k nodes edges gx gy gz P wx wy c0) as (x & i & j & -> & N2 & I1 & J1); auto.
    destruct (Rlt_dec c0 0); [exists x, i, j, (cr h), (cr k)|exists x, j, i, (cr k), (cr h)]; repeat (split; auto); destruct S as [(? & ?)|(? & ?)]; auto; lra. }
  assert (CrL : forall h k, liveH m h -> liveH m k -> fa m h = f -> fa m k = f -> low (ve m h) = true -> low (ve m k) = false -> crossed m u iso f).
  { intros h k Lh Lk Fh Fk X Y. split; [exists h|exists k]; repeat (split; auto). apply low_t; auto. apply low_f; auto. apply hve; auto. }
  assert (Seg : forall h k, liveH m h -> liveH m k -> fa m h = f -> fa m k = f -> rises m u iso h -> falls m u iso k -> crossAt m u iso h (cr h) -> crossAt m u iso k (cr k) -> isoSegment m u iso f (cr h) (cr k)) by (intros h k; intros; exists h, k; auto 10).
  assert (Pos : forall x y, (0 < x -> 0 < y -> 0 < x / y)%R) by (intros; apply Rdiv_lt_0_compat; auto).
  assert (Neg : forall x y, (x < 0 -> 0 < y -> x / y < 0)%R) by (intros x y Hx Hy; assert (0 < (- x) / y)%R by (apply Rdiv_lt_0_compat; lra); unfold Rdiv in *; lra).
  assert (LA := low_t (ve m a)). assert (LB := low_t (ve m b)). assert (LC := low_t (ve m c)). assert (HA := low_f (ve m a) (hve _ La)). assert (HB := low_f (ve m b) (hve _ Lb)). assert (HC := low_f (ve m c) (hve _ Lc)).
  fold uA in LA, HA. fold uB in LB, HB. fold uC in LC, HC.
  assert (SameNot : forall v, low (ve m a) = v -> low (ve m b) = v -> low (ve m c) = v -> ~ crossed m u iso f).
  { intros v A B C ((h & Lh & Fh & X) & (k & Lk & Fk & Y)). apply low_t in X. apply (low_f _ (hve _ Lk)) in Y.
    destruct (Hf h Lh Fh) as [->|[->| ->]], (Hf k Lk Fk) as [->|[->| ->]]; congruence. }
  assert (LoneB : (uB < iso < uA /\ iso < uC)%R \/ (uA < iso < uB /\ uC < iso)%R -> crossb a = true -> crossb b = true ->
     exists x i j p q, finish f nodes edges (cr a) (cr b) (BFace f gx gy gz) = Ok (nodes ++ x, edges ++ [(i, j)]) /\
     NoDup (nodes ++ x) /\ nth_error (nodes ++ x) i = Some p /\ nth_error (nodes ++ x) j = Some q /\ isoSegment m u iso f p q).
  { intros S Xa Xb. apply (Done a b ((iso - uB) / ((uB - uC) * (uB - uA)))%R); auto.
    - left. destruct S; lra.
    - rewrite Va, Vb by auto. fold uA uB uC. rewrite lone by (destruct S; lra). unfold wx. ring.
    - rewrite Va, Vb by auto. fold uA uB uC. rewrite lone by (destruct S; lra). unfold wy. ring.
    - destruct S as [S|S].
      + right. split; [apply Pos; nra|]. apply Seg; auto; unfold rises, falls; rewrite ?V0, ?V1; fold uA uB uC; lra.
      + left. split; [apply Neg; nra|]. apply Seg; auto; unfold rises, falls; rewrite ?V0, ?V1; fold uA uB uC; lra. }
  assert (LoneC : (uC < iso < uB /\ iso < uA)%R \/ (uB < iso < uC /\ uA < iso)%R -> crossb b = true -> crossb c = true ->
     exists x i j p q, finish f nodes edges (cr b) (cr c) (BFace f gx gy gz) = Ok (nodes ++ x, edges ++ [(i, j)]) /\
     NoDup (nodes ++ x) /\ nth_error (nodes ++ x) i = Some p /\ nth_error (nodes ++ x) j = Some q /\ isoSegment m u iso f p q).
  { intros S Xa Xb. apply (Done b c ((iso - uC) / ((uC - uA) * (uC - uB)))%R); auto.
    - right. destruct S; lra.
    - rewrite Vb, Vc by auto. fold uA uB uC. rewrite lone by (destruct S; lra). unfold wx. ring.
    - rewrite Vb, Vc by auto. fold uA uB uC. rewrite lone by (destruct S; lra). unfold wy. ring.
    - destruct S as [S|S].
      + right. split; [apply Pos; nra|]. apply Seg; auto; unfold rises, falls; rewrite ?V1, ?V2; fold uA uB uC; lra.
      + left. split; [apply Neg; nra|]. apply Seg; auto; unfold rises, falls; rewrite ?V1, ?V2; fold uA uB uC; lra. }
  assert (LoneA : (uA < iso < uB /\ iso < uC)%R \/ (uB < iso < uA /\ uC < iso)%R -> crossb a = true -> crossb c = true ->
     exists x i j p q, finish f nodes edges (cr a) (cr c) (BFace f gx gy gz) = Ok (nodes ++ x, edges ++ [(i, j)]) /\
     NoDup (nodes ++ x) /\ nth_error (nodes ++ x) i = Some p /\ nth_error (nodes ++ x) j = Some q /\ isoSegment m u iso f p q).
  { intros S Xa Xb. apply (Done a c (- ((iso - uA) / ((uA - uB) * (uA - uC))))%R); auto.
    - left. destruct S; lra.
    - rewrite Va, Vc by auto. fold uA uB uC. rewrite <- Ropp_minus_distr. rewrite lone by (destruct S; lra). unfold wx. ring.
    - rewrite Va, Vc by auto. fold uA uB uC. rewrite <- Ropp_minus_distr. rewrite lone by (destruct S; lra). unfold wy. ring.
    - destruct S as [S|S].
      + left. split; [apply Ropp_lt_gt_0_contravar, Rlt_gt, Pos; nra|]. apply Seg; auto; unfold rises, falls; rewrite ?V0, ?V2; fold uA uB uC; lra.
      + right. split; [apply Ropp_0_gt_lt_contravar, Neg; nra|]. apply Seg; auto; unfold rises, falls; rewrite ?V0, ?V2; fold uA uB uC; lra. }
  clear Done Seg Pos Neg EG EW WP Ra Rb Rc Fla Flb Flc Ka Kb Kc Va Vb Vc.
  destruct (low (ve m a)) eqn:EA, (low (ve m b)) eqn:EB, (low (ve m c)) eqn:EC; cbn [xorb] in Ca, Cb, Cc; rewrite Ca, Cb, Cc; cbn [map];
    [left; split; [apply (SameNot true); auto|reflexivity]| | | | | | |left; split; [apply (SameNot false); auto|reflexivity]]; right.
  - split; [apply (CrL a c); auto|]. apply LoneC; auto. right. destruct (LA), (LB), (HC); lra || intuition.
  - split; [apply (CrL a b); auto|]. apply LoneB; auto. right. intuition.
  - split; [apply (CrL a b); auto|]. apply LoneA; auto. left. intuition.
  - split; [apply (CrL b a); auto|]. apply LoneA; auto. right. intuition.
  - split; [apply (CrL b a); auto|]. apply LoneB; auto. left. intuition.
  - split; [apply (CrL c a); auto|]. apply LoneC; auto. left. intuition.
Qed.

(** ** which side the corners are on *)
Lemma cr_unique h p : liveH m h -> crossb h = true -> crossAt m u iso h p -> p = cr h.
Proof.
  intros L C (t & -> & _ & E). unfold cr. f_equal. rewrite <- (xorb_half h L) in C. unfold crossb, low in C. unfold tOf. unfold valueAt in E. cbn [weights fold_right] in E.
  set (a := u (ve m (2 * edge h))) in *. set (b := u (ve m (tw (2 * edge h)))) in *.
  assert (Le : liveH m (2 * edge h)) by (apply (half_live m V); auto).
  assert (N0 : a <> iso) by (apply NV, hve; auto). assert (N1 : b <> iso) by (apply NV, hve, (cn_tw _ CN); auto).
  assert (Nb : (b - a <> 0)%R) by (destruct (Rlt_dec a iso), (Rlt_dec b iso); cbn in C; try discriminate; lra).
  apply (Rmult_eq_reg_r (b - a)); auto. unfold Rdiv. rewrite Rmult_assoc, Rinv_l by auto. lra.
Qed.
Lemma rises_cross h : liveH m h -> rises m u iso h -> crossb h = true.
Proof. intros L H. apply rises_iff in H as (A & B); auto. unfold crossb. rewrite A, B. reflexivity. Qed.
Lemma falls_cross h : liveH m h -> falls m u iso h -> crossb h = true.
Proof. intros L H. apply falls_iff in H as (A & B); auto. unfold crossb. rewrite A, B. reflexivity. Qed.
Lemma side_lemma ax ay bx by' cx cy uA uB uC x y p1 p2 q1 q2 uX k al be : (0 < (bx - ax) * (cy - ay) - (by' - ay) * (cx - ax) -> k < 0 ->
  q1 - p1 = k * (uA * (cx - bx) + uB * (ax - cx) + uC * (bx - ax)) -> q2 - p2 = k * (uA * (cy - by') + uB * (ay - cy) + uC * (by' - ay)) ->
  p1 = ax + al * (bx - ax) + be * (cx - ax) -> p2 = ay + al * (by' - ay) + be * (cy - ay) -> iso = uA + al * (uB - uA) + be * (uC - uA) ->
  (x = ax /\ y = ay /\ uX = uA \/ x = bx /\ y = by' /\ uX = uB \/ x = cx /\ y = cy /\ uX = uC) ->
  (uX < iso -> 0 < (q1 - p1) * (y - p2) - (q2 - p2) * (x - p1)) /\ (iso < uX -> (q1 - p1) * (y - p2) - (q2 - p2) * (x - p1) < 0))%R.
Proof.
  intros A K Q1 Q2 P1 P2 I X.
  assert (E : ((q1 - p1) * (y - p2) - (q2 - p2) * (x - p1) = k * (uX - iso) * ((bx - ax) * (cy - ay) - (by' - ay) * (cx - ax)))%R).
  { rewrite Q1, Q2, P1, P2, I. destruct X as [(-> & -> & ->)|[(-> & -> & ->)|(-> & -> & ->)]]; ring. }
  rewrite E. set (ar := ((bx - ax) * (cy - ay) - (by' - ay) * (cx - ax))%R) in *. split; intros H.
  - clear -A K H. assert (0 < (- k) * (iso - uX))%R by (apply Rmult_lt_0_compat; lra). apply Rmult_lt_0_compat; auto. lra.
  - clear -A K H. assert (0 < (- k) * (uX - iso))%R by (apply Rmult_lt_0_compat; lra). assert (0 < (- k) * (uX - iso) * ar)%R by (apply Rmult_lt_0_compat; lra). lra.
Qed.
Lemma segment_sides f p q P : liveF m f -> layout P f -> isoSegment m u iso f p q ->
  forall g, liveH m g -> fa m g = f -> ((u (ve m g) < iso -> 0 < area2 (place m P p) (place m P q) (P (ve m g))) /\ (iso < u (ve m g) -> area2 (place m P p) (place m P q) (P (ve m g)) < 0))%R.
Proof.
  intros F LP (h & k & Lh & Fh & Rh & Kh & Lk & Fk & Rk & Kk) g Lg Fg.
  rewrite (cr_unique h p Lh (rises_cross h Lh Rh) Kh), (cr_unique k q Lk (falls_cross k Lk Rk) Kk). clear Kh Kk p q.
  destruct (tri_facts m V f T F) as (La & Lb & Lc & Fa & Fb & Fc & N3 & V0 & V1 & V2).
  assert (Hf : forall h, liveH m h -> fa m h = f -> h = fh m f \/ h = nx m (fh m f) \/ h = nx m (nx m (fh m f))).
  { intros h0 L E. apply (tri_three m V); auto; [apply (liveF_not_ext m); rewrite ?Fa; auto|congruence]. }
  assert (AR := proj2 LP). unfold ccw, area2 in AR.
  set (a := fh m f) in *. set (b := nx m a) in *. set (c := nx m b) in *.
  assert (Xh := rises_cross h Lh Rh). assert (Xk := falls_cross k Lk Rk).
  unfold area2, place. cbn [px py]. rewrite !cr_value by auto. clear Xh Xk.
  assert (Pos : forall x y, (0 < x -> 0 < y -> 0 < x / y)%R) by (intros; apply Rdiv_lt_0_compat; auto).
  assert (Neg : forall x y, (x < 0 -> 0 < y -> x / y < 0)%R) by (intros x y Hx Hy; assert (0 < (- x) / y)%R by (apply Rdiv_lt_0_compat; lra); unfold Rdiv in *; lra).
  assert (GX : forall uX x y, uX = u (ve m g) -> x = px (P (ve m g)) -> y = py (P (ve m g)) ->
     (x = px (P (ve m a)) /\ y = py (P (ve m a)) /\ uX = u (ve m a) \/ x = px (P (ve m b)) /\ y = py (P (ve m b)) /\ uX = u (ve m b) \/ x = px (P (ve m c)) /\ y = py (P (ve m c)) /\ uX = u (ve m c))%R).
  { intros uX x y -> -> ->. destruct (Hf g Lg Fg) as [->|[->| ->]]; auto. }
  specialize (GX _ _ _ eq_refl eq_refl eq_refl). unfold rises, falls in *.
  destruct (Hf h Lh Fh) as [->|[->| ->]], (Hf k Lk Fk) as [->|[->| ->]]; rewrite ?V0, ?V1, ?V2 in *; try lra;
    set (uA := u (ve m a)) in *; set (uB := u (ve m b)) in *; set (uC := u (ve m c)) in *.
  - (* a, b *)
    apply (side_lemma (px (P (ve m a))) (py (P (ve m a))) (px (P (ve m b))) (py (P (ve m b))) (px (P (ve m c))) (py (P (ve m c))) uA uB uC _ _ _ _ _ _ _ ((iso - uB) / ((uB - uC) * (uB - uA))) ((iso - uA) / (uB - uA)) 0)%R; auto; try (apply Neg; nra); try (rewrite lone by lra; ring); field; lra.
  - (* a, c *)
    apply (side_lemma (px (P (ve m a))) (py (P (ve m a))) (px (P (ve m b))) (py (P (ve m b))) (px (P (ve m c))) (py (P (ve m c))) uA uB uC _ _ _ _ _ _ _ (- ((iso - uA) / ((uA - uB) * (uA - uC)))) ((iso - uA) / (uB - uA)) 0)%R; auto; try (apply Ropp_lt_gt_0_contravar, Rlt_gt, Pos; nra); try (rewrite <- Ropp_minus_distr; rewrite lone by lra; ring); field; lra.
  - (* b, a *)
    apply (side_lemma (px (P (ve m a))) (py (P (ve m a))) (px (P (ve m b))) (py (P (ve m b))) (px (P (ve m c))) (py (P (ve m c))) uA uB uC _ _ _ _ _ _ _ (- ((iso - uB) / ((uB - uC) * (uB - uA)))) (1 - (iso - uB) / (uC - uB)) ((iso - uB) / (uC - uB)))%R; auto; try (apply Ropp_lt_gt_0_contravar, Rlt_gt, Pos; nra); try (rewrite <- Ropp_minus_distr; rewrite lone by lra; ring); field; lra.
  - (* b, c *)
    apply (side_lemma (px (P (ve m a))) (py (P (ve m a))) (px (P (ve m b))) (py (P (ve m b))) (px (P (ve m c))) (py (P (ve m c))) uA uB uC _ _ _ _ _ _ _ ((iso - uC) / ((uC - uA) * (uC - uB))) (1 - (iso - uB) / (uC - uB)) ((iso - uB) / (uC - uB)))%R; auto; try (apply Neg; nra); try (rewrite lone by lra; ring); field; lra.
  - (* c, a *)
    apply (side_lemma (px (P (ve m a))) (py (P (ve m a))) (px (P (ve m b))) (py (P (ve m b))) (px (P (ve m c))) (py (P (ve m c))) uA uB uC _ _ _ _ _ _ _ ((iso - uA) / ((uA - uB) * (uA - uC))) 0 (1 - (iso - uC) / (uA - uC)))%R; auto; try (apply Neg; nra); try (rewrite lone by lra; ring); field; lra.
  - (* c, b *)
    apply (side_lemma (px (P (ve m a))) (py (P (ve m a))) (px (P (ve m b))) (py (P (ve m b))) (px (P (ve m c))) (py (P (ve m c))) uA uB uC _ _ _ _ _ _ _ (- ((iso - uC) / ((uC - uA) * (uC - uB)))) 0 (1 - (iso - uC) / (uA - uC)))%R; auto; try (apply Ropp_lt_gt_0_contravar, Rlt_gt, Pos; nra); try (rewrite <- Ropp_minus_distr; rewrite lone by lra; ring); field; lra.
Qed.
End I.
