(** Deleting elements: storage and counts step by step, and connectivity when faces are merged by dropping halfedges. *)
From Verif Require Import Base MeshModel MeshSpec MeshBase MeshExec MeshOrbit MeshAlloc MeshFlip MeshInsert MeshOpSpec MeshConnect.
From Coq Require Import Permutation.
Open Scope Z_scope.

(** ** storage and counts under single writes *)
Record Kept (m m' : mesh) : Prop := { kp_scal : scal m' = scal m; kp_lens : lens m' = lens m }.
Lemma kept_refl m : Kept m m. Proof. split; auto. Qed.
Lemma kept_trans a b c : Kept a b -> Kept b c -> Kept a c.
Proof. intros [A B] [C D]. split; congruence. Qed.
Lemma kept_stored m m' : Kept m m' -> Stored m -> Stored m'.
Proof.
  intros [A B] []. unfold scal in A. unfold lens in B. injection A as ?????? ????? ????. injection B as ?????.
  split; congruence || lia.
Qed.
Lemma stored_wnext m i x : Kept m (with_next m i x).
Proof. split; [reflexivity|]. unfold lens. proj. rewrite zlen_updZ. auto. Qed.
Lemma stored_wvertex m i x : Kept m (with_vertex m i x).
Proof. split; [reflexivity|]. unfold lens. proj. rewrite zlen_updZ. auto. Qed.
Lemma stored_wface m i x : Kept m (with_face m i x).
Proof. split; [reflexivity|]. unfold lens. proj. rewrite zlen_updZ. auto. Qed.
Lemma stored_wvhe m i x : Kept m (with_vhe m i x).
Proof. split; [reflexivity|]. unfold lens. proj. rewrite zlen_updZ. auto. Qed.
Lemma stored_wfhe m i x : Kept m (with_fhe m i x).
Proof. split; [reflexivity|]. unfold lens. proj. rewrite zlen_updZ. auto. Qed.

(** counts depend only on which entries are INVALID and which halfedges are interior *)
Record SameLive (m m' : mesh) : Prop := {
  sl_kept : Kept m m';
  sl_h : forall h, nx m' h = -1 <-> nx m h = -1;
  sl_i : forall h, nx m h <> -1 -> (fFill m <= fa m' h <-> fFill m <= fa m h);
  sl_v : forall v, vh m' v = -1 <-> vh m v = -1;
  sl_f : forall f, fh m' f = -1 <-> fh m f = -1 }.
Lemma same_live_refl m : SameLive m m. Proof. split; try tauto. apply kept_refl. Qed.
Lemma same_live_trans a b c : SameLive a b -> SameLive b c -> SameLive a c.
Proof.
  intros [A1 A2 A3 A4 A5] [B1 B2 B3 B4 B5]. split.
  - eapply kept_trans; eauto.
  - intros h. rewrite B2. apply A2.
  - intros h H. assert (F : fFill b = fFill a) by (destruct A1 as [A _]; unfold scal in A; congruence). rewrite <- (A3 h H). rewrite <- F. apply B3. rewrite A2. exact H.
  - intros v. rewrite B4. apply A4.
  - intros f. rewrite B5. apply A5.
Qed.
Lemma same_live_counted m m' : SameLive m m' -> Counted m -> Counted m'.
Proof.
  intros [[A _] H I Vv F] [C1 C2 C3 C4 C5 C6]. unfold scal in A. injection A as A1 A2 A3 A4 A5 A6 B1 B2 B3 B4 B5 D1 D2 D3 D4.
  assert (LH : forall h, liveHb m' h = liveHb m h). { intros h. unfold liveHb. pose proof (H h) as K. f_equal. clear -K; lia. }
  split.
  - rewrite (countb_ext (liveHb m') (liveHb m)) by auto. congruence.
  - rewrite (countb_ext (intHb m') (intHb m)); [congruence|]. intros h _. unfold intHb. rewrite LH. destruct (liveHb m h) eqn:E; auto. cbn. f_equal.
    pose proof (I h) as K. rewrite B4. assert (K2 : nx m h <> -1) by (unfold liveHb in E; clear -E; lia). specialize (K K2). clear -K. lia.
  - rewrite (countb_ext _ (fun e => liveHb m (2 * e))); [congruence|]. intros; apply LH.
  - rewrite (countb_ext _ (liveVb m)); [congruence|]. intros v _. unfold liveVb. pose proof (Vv v) as K. f_equal. clear -K; lia.
  - rewrite (countb_ext _ (liveFb m)); [congruence|]. intros v _. unfold liveFb. pose proof (F v) as K. f_equal. clear -K; lia.
  - rewrite (countb_ext _ (fun i => liveFb m (fCap m - 1 - i))); [congruence|]. intros v _. unfold liveFb. rewrite D4. pose proof (F (fCap m - 1 - v)) as K. f_equal. clear -K; lia.
Qed.
Lemma sl_wnext m i x : 0 <= i < zlen (heNext m) -> nx m i <> -1 -> x <> -1 -> SameLive m (with_next m i x).
Proof.
  intros B H Hx. split; [apply stored_wnext|..]; try (intros; tauto). intros h. rewrite nx_wnext by auto. destruct (Z.eqb_spec h i) as [->|]; [lia|tauto].
Qed.
Lemma sl_wvertex m i x : SameLive m (with_vertex m i x).
Proof. split; [apply stored_wvertex|..]; intros; tauto. Qed.
Lemma sl_wface m i x : 0 <= i < zlen (heFace m) -> (fFill m <= x <-> fFill m <= fa m i) -> SameLive m (with_face m i x).
Proof.
  intros B H. split; [apply stored_wface|..]; try (intros; tauto). intros h _. rewrite fa_wface by auto. destruct (Z.eqb_spec h i) as [->|]; [auto|tauto].
Qed.
Lemma sl_wvhe m i x : 0 <= i < zlen (vHalfedge m) -> vh m i <> -1 -> x <> -1 -> SameLive m (with_vhe m i x).
Proof.
  intros B H Hx. split; [apply stored_wvhe|..]; try (intros; tauto). intros h. rewrite vh_wvhe by auto. destruct (Z.eqb_spec h i) as [->|]; [lia|tauto].
Qed.
Lemma sl_wfhe m i x : 0 <= i < zlen (fHalfedge m) -> fh m i <> -1 -> x <> -1 -> SameLive m (with_fhe m i x).
Proof.
  intros B H Hx. split; [apply stored_wfhe|..]; try (intros; tauto). intros h. rewrite fh_wfhe by auto. destruct (Z.eqb_spec h i) as [->|]; [lia|tauto].
Qed.

(** ** deleteElement *)
(** fill counts, capacities and array sizes *)
Definition dims (m : mesh) := (heFill m, eFill m, vFill m, fFill m, bFill m, (heCap m, eCap m, vCap m, fCap m), lens m).
Lemma dims_stored m m' : dims m' = dims m -> Stored m -> Stored m'.
Proof.
  intros A []. unfold dims, lens in A. injection A as ????? ???? ?????. split; congruence || lia.
Qed.
Lemma kept_dims m m' : Kept m m' -> dims m' = dims m.
Proof. intros [A B]. unfold scal in A. unfold dims. injection A as ?????? ????? ????. congruence. Qed.

Lemma deleteFace_ok m f : Stored m -> Counted m -> 0 <= f < fFill m -> fh m f <> -1 ->
  exists m', deleteFace m f = Ok m' /\ dims m' = dims m /\ Counted m' /\
    (forall h, nx m' h = nx m h /\ ve m' h = ve m h /\ fa m' h = fa m h) /\ (forall v, vh m' v = vh m v) /\
    (forall k, fh m' k = if k =? f then -1 else fh m k) /\
    (nHalfedges m', nInterior m', nEdges m', nVertices m', nFaces m', nLoops m') =
    (nHalfedges m, nInterior m, nEdges m, nVertices m, nFaces m - 1, nLoops m).
Proof.
  intros ST CT Hf Hl. destruct ST. destruct CT as [C1 C2 C3 C4 C5 C6]. unfold deleteFace. rewrite setFHe_ok by lia. cbn [bind]. eexists. split; [reflexivity|].
  set (mm := mkMesh _ _ _ _ _ _ _ _ _ _ _ _ _ _ _ _ _ _ _ _ _ _).
  assert (FH : forall k, fh mm k = if k =? f then -1 else fh m k) by (intros k; unfold fh, mm; proj; apply getZ_updZ; lia).
  split; [unfold dims, lens, mm; proj; rewrite zlen_updZ; reflexivity|]. split; [|auto].
  split; auto.
  - change (nFaces m - 1 = countb (liveFb mm) (fFill m)). rewrite C5. symmetry. rewrite (countb_upd (liveFb m) (liveFb mm) (fFill m) f); auto.
    + unfold liveFb. rewrite FH, Z.eqb_refl. destruct (Z.eqb_spec (fh m f) (-1)); [congruence|]. cbn. lia.
    + intros j _ Hj. unfold liveFb. rewrite FH. destruct (Z.eqb_spec j f); [congruence|auto].
  - change (nLoops m = countb (fun i => liveFb mm (fCap m - 1 - i)) (bFill m)). rewrite C6. apply countb_ext. intros i Hi. unfold liveFb. rewrite FH. destruct (Z.eqb_spec (fCap m - 1 - i) f); [lia|auto].
Qed.

Lemma deleteVertex_ok m v : Stored m -> Counted m -> 0 <= v < vFill m -> vh m v <> -1 ->
  exists m', deleteVertex m v = Ok m' /\ dims m' = dims m /\ Counted m' /\
    (forall h, nx m' h = nx m h /\ ve m' h = ve m h /\ fa m' h = fa m h) /\ (forall k, vh m' k = if k =? v then -1 else vh m k) /\
    (forall k, fh m' k = fh m k) /\
    (nHalfedges m', nInterior m', nEdges m', nVertices m', nFaces m', nLoops m') =
    (nHalfedges m, nInterior m, nEdges m, nVertices m - 1, nFaces m, nLoops m).
Proof.
  intros ST CT Hf Hl. destruct ST. destruct CT as [C1 C2 C3 C4 C5 C6]. unfold deleteVertex. rewrite setVHe_ok by lia. cbn [bind]. eexists. split; [reflexivity|].
  set (mm := mkMesh _ _ _ _ _ _ _ _ _ _ _ _ _ _ _ _ _ _ _ _ _ _).
  assert (FH : forall k, vh mm k = if k =? v then -1 else vh m k) by (intros k; unfold vh, mm; proj; apply getZ_updZ; lia).
  split; [unfold dims, lens, mm; proj; rewrite zlen_updZ; reflexivity|]. split; [|auto 6].
  split; auto. change (nVertices m - 1 = countb (liveVb mm) (vFill m)).
  rewrite C4. symmetry. rewrite (countb_upd (liveVb m) (liveVb mm) (vFill m) v); auto.
  - unfold liveVb. rewrite FH, Z.eqb_refl. destruct (Z.eqb_spec (vh m v) (-1)); [congruence|]. cbn. lia.
  - intros j _ Hj. unfold liveVb. rewrite FH. destruct (Z.eqb_spec j v); [congruence|auto].
Qed.

(** an edge whose two halfedges are both interior *)
Lemma deleteEdge_ok m e : Stored m -> Counted m -> 0 <= eHe e < heFill m ->
  let a := eHe e in let b := tw a in nx m a <> -1 -> nx m b <> -1 -> 0 <= fa m a -> 0 <= fa m b ->
  let k := b2z (fa m a <? fFill m) + b2z (fa m b <? fFill m) in
  exists m', deleteEdgeBundle m e = Ok m' /\ dims m' = dims m /\ Counted m' /\
    (forall h, nx m' h = if (h =? a) || (h =? b) then -1 else nx m h) /\
    (forall h, h <> a -> h <> b -> ve m' h = ve m h /\ fa m' h = fa m h) /\ (forall v, vh m' v = vh m v) /\ (forall f, fh m' f = fh m f) /\
    (nHalfedges m', nInterior m', nEdges m', nVertices m', nFaces m', nLoops m') =
    (nHalfedges m - 2, nInterior m - k, nEdges m - 1, nVertices m, nFaces m, nLoops m).
Proof.
  intros ST CT He a b Na Nb Fa Fb k. destruct ST as [T1 T2 T3 T4 T5 T6 [T7 T8] T9 T10]. destruct CT as [C1 C2 C3 C4 C5 C6].
  assert (EB : b = a + 1) by (unfold b; apply tw_even; unfold a, eHe; lia).
  assert (Hb : 0 <= b < heFill m) by (unfold a, eHe in *; lia). fold a in He.
  assert (ab : a <> b) by lia.
  assert (BND : 0 <= a < zlen (heNext m) /\ 0 <= a < zlen (heVertex m) /\ 0 <= a < zlen (heFace m) /\ 0 <= b < zlen (heNext m) /\ 0 <= b < zlen (heVertex m) /\ 0 <= b < zlen (heFace m)) by lia.
  unfold deleteEdgeBundle, deleteHalfedge. fold a. fold b. unfold isInterior at 1. rewrite faceOf_ok by (clear -BND; lia). cbn [bind].
  rewrite setNext_ok by (clear -BND; bnd). cbn [bind]. rewrite setVertex_ok by (clear -BND; bnd). cbn [bind]. rewrite setFace_ok by (clear -BND; bnd). cbn [bind].
  set (m1 := mkMesh _ _ _ _ _ _ _ _ _ _ _ _ _ _ _ _ _ _ _ _ _ _).
  assert (Z1 : zlen (heNext m1) = zlen (heNext m) /\ zlen (heVertex m1) = zlen (heVertex m) /\ zlen (heFace m1) = zlen (heFace m)) by (unfold m1; proj; rewrite !zlen_updZ; auto).
  destruct Z1 as (Z1 & Z2 & Z3). rewrite <- Z1, <- Z2, <- Z3 in BND.
  assert (F1 : fa m1 b = fa m b). { unfold fa, m1. proj. rewrite getZ_updZ by (clear -BND Z3; lia). destruct (Z.eqb_spec b a); [congruence|auto]. }
  unfold isInterior. rewrite faceOf_ok by (clear -BND; lia). cbn [bind]. rewrite F1.
  rewrite setNext_ok by (clear -BND; bnd). cbn [bind]. rewrite setVertex_ok by (clear -BND; bnd). cbn [bind]. rewrite setFace_ok by (clear -BND; bnd). cbn [bind].
  eexists. split; [reflexivity|]. set (mm := mkMesh (heNext _) _ _ _ _ _ _ (nEdges _ - 1) _ _ _ _ _ _ _ _ _ _ _ _ _ _).
  assert (NX : forall h, nx mm h = if (h =? a) || (h =? b) then -1 else nx m h).
  { intros h. unfold nx, mm. proj. rewrite getZ_updZ by (clear -BND; lia). unfold m1. proj. rewrite getZ_updZ by (clear -BND Z1; lia). destruct (h =? a), (h =? b); auto. }
  assert (VF : forall h, h <> a -> h <> b -> ve mm h = ve m h /\ fa mm h = fa m h).
  { intros h K1 K2. unfold ve, fa, mm. proj. rewrite !getZ_updZ by (clear -BND; lia). unfold m1. proj. rewrite !getZ_updZ by (clear -BND Z2 Z3; lia).
    destruct (Z.eqb_spec h a); [congruence|]. destruct (Z.eqb_spec h b); [congruence|]. auto. }
  assert (KI : nInterior mm = nInterior m - k).
  { unfold mm. proj. unfold m1. proj. unfold isLoop. proj. unfold k.
    destruct (Z.ltb_spec (fa m a) 0), (Z.ltb_spec (fa m b) 0); try lia. cbn [orb negb].
    destruct (Z.leb_spec (fFill m) (fa m a)), (Z.ltb_spec (fa m a) (fFill m)), (Z.leb_spec (fFill m) (fa m b)), (Z.ltb_spec (fa m b) (fFill m)); cbn [negb b2z]; lia. }
  assert (LB : forall h, liveHb mm h = if (h =? a) || (h =? b) then false else liveHb m h).
  { intros h. unfold liveHb. rewrite NX. destruct ((h =? a) || (h =? b)); auto. }
  assert (LA : liveHb m a = true) by (unfold liveHb; lia). assert (LBb : liveHb m b = true) by (unfold liveHb; lia).
  split; [unfold dims, lens, mm, m1; proj; rewrite ?zlen_updZ; reflexivity|].
  split; [|split; [exact NX|split; [exact VF|split; [auto|split; [auto|]]]]].
  2: { rewrite KI. unfold mm, m1. proj. f_equal. f_equal. f_equal. f_equal. f_equal. lia. }
  assert (CNT : forall p q : Z -> bool, (forall h, q h = if (h =? a) || (h =? b) then false else p h) -> countb q (heFill m) = countb p (heFill m) - b2z (p a) - b2z (p b)).
  { intros p q H. set (r := fun h => if h =? a then false else p h).
    rewrite (countb_upd r q (heFill m) b); auto.
    - rewrite (countb_upd p r (heFill m) a); auto.
      + rewrite (H b). unfold r. rewrite Z.eqb_refl, (Z.eqb_refl b), orb_true_r. destruct (Z.eqb_spec b a); [congruence|]. cbn. lia.
      + intros j _ Hj. unfold r. destruct (Z.eqb_spec j a); [congruence|auto].
    - intros j _ Hj. rewrite H. unfold r. destruct (j =? a); auto. destruct (Z.eqb_spec j b); [congruence|auto]. }
  split.
  - change (heFill mm) with (heFill m). rewrite (CNT (liveHb m)) by exact LB. rewrite LA, LBb, <- C1. unfold mm, m1. proj. cbn. lia.
  - rewrite KI. change (heFill mm) with (heFill m). rewrite (CNT (intHb m)).
    + rewrite C2. unfold k. unfold intHb at 3 4. rewrite LA, LBb. cbn [andb]. clear. destruct (Z.leb_spec (fFill m) (fa m a)), (Z.ltb_spec (fa m a) (fFill m)), (Z.leb_spec (fFill m) (fa m b)), (Z.ltb_spec (fa m b) (fFill m)); cbn [negb b2z]; lia.
    + intros h. unfold intHb. rewrite LB. destruct (Z.eqb_spec h a); auto. destruct (Z.eqb_spec h b); auto. cbn [orb]. destruct (VF h) as [_ ->]; auto.
  - change (eFill mm) with (eFill m). change (nEdges mm) with (nEdges m - 1). rewrite C3. rewrite (countb_upd (fun e => liveHb m (2 * e)) (fun e => liveHb mm (2 * e)) (eFill m) e).
    + cbn beta. rewrite LB. fold (eHe e). fold a. rewrite LA, Z.eqb_refl. cbn. lia.
    + unfold a, eHe in He. lia.
    + intros j _ Hj. cbn beta. rewrite LB. unfold a, eHe in *. destruct (Z.eqb_spec (2 * j) (2 * e)); [lia|]. destruct (Z.eqb_spec (2 * j) b); [lia|auto].
  - exact C4.
  - exact C5.
  - exact C6.
Qed.

(** ** connectivity after dropping the halfedges satisfying [d] and merging the faces satisfying [mg] into [f0]; [phi] sends
    a dropped halfedge to the next surviving one around its vertex *)
Lemma chain_map f a l b : l <> [] -> chain f a l b -> map f l = tl l ++ [b].
Proof.
  revert a; induction l as [|x t IH]; [congruence|]. intros a _ [-> C]. cbn. destruct t as [|y t]; [cbn in *; subst; auto|].
  rewrite (IH (f a)) by (auto; discriminate). destruct C as [-> _]. reflexivity.
Qed.
Lemma NoDup_map_inj {A B} (f : A -> B) l x y : NoDup (map f l) -> In x l -> In y l -> f x = f y -> x = y.
Proof.
  induction l as [|z t IH]; cbn; [contradiction|]. intros ND Hx Hy E. apply NoDup_cons_iff in ND as [N1 N2].
  destruct Hx as [->|Hx], Hy as [->|Hy]; auto; exfalso; apply N1; [rewrite E|rewrite <- E]; apply in_map; auto.
Qed.
Lemma cycle_inj f s l x y : chain f s l s -> NoDup l -> In x l -> In y l -> f x = f y -> x = y.
Proof.
  intros C ND Hx Hy. assert (Hl : l <> []) by (intros ->; contradiction). apply NoDup_map_inj with l; auto. rewrite (chain_map f s l s) by auto.
  destruct l as [|z t]; [contradiction|]. destruct C as [<- _]. cbn. apply NoDup_cons_iff in ND as [N1 N2]. apply Permutation_NoDup with (z :: t).
  - apply Permutation_cons_append.
  - constructor; auto.
Qed.

Section Del.
Context (m m' : mesh) (d mg : Z -> bool) (phi : Z -> Z) (f0 s : Z) (l : list Z).
Context (CN : Connected m) (RB : forall h, liveH m h -> 0 <= h < heFill m) (FF : fFill m' = fFill m).
Context (DT : forall h, liveH m h -> d (tw h) = d h).
Context (LH : forall h, liveH m' h <-> liveH m h /\ d h = false).
Context (DX : forall h, liveH m h -> d h = true -> mg (fa m h) = true).
Context (MX : forall f, mg f = true -> 0 <= f < fFill m).
Context (LVs : forall h, liveH m' h -> liveV m' (ve m h)).
Context (PH0 : forall h, liveH m h -> d h = false -> phi h = h).
Context (PH1 : forall h, liveH m h -> d h = true -> liveV m' (ve m h) -> liveH m' (phi h) /\ ve m (phi h) = ve m h /\ phi (nx m (tw h)) = phi h).
Context (NX : forall h, liveH m' h -> nx m' h = phi (nx m h)).
Context (VE : forall h, liveH m' h -> ve m' h = ve m h).
Context (FA : forall h, liveH m' h -> fa m' h = if mg (fa m h) then f0 else fa m h) (M0 : mg f0 = true).
Context (CY : chain (nx m') s l s) (ND : NoDup l) (CM : forall x, In x l <-> liveH m' x /\ mg (fa m x) = true).
Context (LF : forall f, liveFL m' f <-> liveFL m f /\ (mg f = false \/ f = f0)) (LF0 : liveFL m' f0).
Context (VH : forall v, liveV m' v -> liveV m v /\ liveH m' (vh m' v) /\ ve m (vh m' v) = v /\ (d (vh m v) = false -> vh m' v = vh m v)).
Context (FH : forall f, liveFL m' f -> f <> f0 -> fh m' f = fh m f) (FH0 : In (fh m' f0) l).

Lemma del_connected : Connected m'.
Proof.
  assert (LO : forall h, liveH m' h -> liveH m h) by (intros h H; apply LH in H; tauto).
  assert (LD : forall h, liveH m' h -> d h = false) by (intros h H; apply LH in H; tauto).
  assert (TW : forall h, liveH m' h -> liveH m' (tw h)).
  { intros h H. apply LH. split; [apply CN; auto|]. rewrite DT by auto. auto. }
  assert (VN : forall h, liveH m' h -> liveV m' (ve m (nx m h))).
  { intros h H. rewrite (cn_vnx _ CN) by auto. apply LVs. auto. }
  assert (NXL : forall h, liveH m' h -> liveH m' (nx m' h) /\ ve m (nx m' h) = ve m (tw h)).
  { intros h H. rewrite NX by auto. assert (Ln : liveH m (nx m h)) by (apply CN; auto). destruct (d (nx m h)) eqn:E.
    - destruct (PH1 _ Ln E (VN h H)) as (K1 & K2 & _). split; auto. rewrite K2. apply (cn_vnx _ CN); auto.
    - rewrite PH0 by auto. split; [apply LH; auto|apply (cn_vnx _ CN); auto]. }
  assert (OTH : forall h, liveH m' h -> mg (fa m h) = false -> nx m' h = nx m h).
  { intros h H K. rewrite NX by auto. assert (Ln : liveH m (nx m h)) by (apply CN; auto). apply PH0; auto. destruct (d (nx m h)) eqn:E; auto.
    apply DX in E; auto. rewrite (cn_fnx _ CN) in E by auto. congruence. }
  assert (FNX : forall h, liveH m' h -> mg (fa m (nx m' h)) = mg (fa m h) /\ (mg (fa m h) = false -> fa m (nx m' h) = fa m h)).
  { intros h H. destruct (mg (fa m h)) eqn:E.
    - split; [|discriminate]. assert (K : In (nx m' h) l) by (apply cycle_closed with s; auto; [intros ->; contradiction FH0|apply CM; auto]). apply CM in K; tauto.
    - rewrite OTH by auto. rewrite (cn_fnx _ CN) by auto. auto. }
  assert (FEQ : forall x y, liveH m' x -> liveH m' y -> fa m' x = fa m' y -> mg (fa m x) = mg (fa m y) /\ (mg (fa m x) = false -> fa m x = fa m y)).
  { intros x y Hx Hy. rewrite !FA by auto. destruct (mg (fa m x)) eqn:E1, (mg (fa m y)) eqn:E2; intros K; try (split; [auto|auto; discriminate]); congruence. }
  assert (INJ : forall x y, liveH m' x -> liveH m' y -> nx m' x = nx m' y -> x = y).
  { intros x y Hx Hy E. destruct (FNX x Hx) as [A1 A2]. destruct (FNX y Hy) as [B1 B2]. rewrite <- E in B1. rewrite A1 in B1.
    destruct (mg (fa m x)) eqn:Ex.
    - apply (cycle_inj (nx m') s l); auto; apply CM; auto.
    - rewrite !OTH in E by auto. apply (cn_inj _ CN); auto. }
  assert (RB' : forall x, liveH m' x -> 0 <= x < heFill m) by auto.
  split.
  - exact TW.
  - intros h H. apply NXL; auto.
  - exact INJ.
  - intros h H. rewrite VE by auto. auto.
  - intros h H. rewrite FA by auto. destruct (mg (fa m h)) eqn:E; auto. apply LF. split; auto. apply CN; auto.
  - intros h H. rewrite !VE by (auto; apply NXL; auto). apply NXL; auto.
  - intros h H. rewrite !FA by (auto; apply NXL; auto). destruct (FNX h H) as [A1 A2]. rewrite A1. destruct (mg (fa m h)); auto.
  - intros v Hv. destruct (VH v Hv) as (_ & A & B & _). split; auto. rewrite VE; auto.
  - intros f Hf. destruct (Z.eq_dec f f0) as [->|K].
    + apply CM in FH0 as [A B]. split; auto. rewrite FA, B by auto. auto.
    + rewrite FH by auto. apply LF in Hf as [A [B|B]]; [|contradiction]. destruct (cn_fh _ CN f A) as [C D].
      assert (L' : liveH m' (fh m f)). { apply LH. split; auto. destruct (d (fh m f)) eqn:E; auto. apply DX in E; auto. congruence. }
      split; auto. rewrite FA, D, B by auto. auto.
  - intros x y Hx Hy E. destruct (FEQ x y Hx Hy E) as [A1 A2]. destruct (mg (fa m x)) eqn:Ex.
    + eapply cycle_orbit; [exact CY|apply CM; auto|apply CM; auto].
    + apply (reach_ext (fun z => liveH m' z /\ fa m z = fa m x)) with (f := nx m); auto.
      * intros z [Hz Ez]. rewrite <- OTH by (auto; congruence). split; [apply NXL; auto|]. destruct (FNX z Hz) as [_ K]. rewrite K by congruence. auto.
      * intros z [Hz Ez]. apply OTH; auto. congruence.
      * apply (cn_forb _ CN); auto.
  - apply orbit_transfer with (L := fun h => liveH m h /\ liveV m' (ve m h)) (L' := liveH m') (f := ro m) (lab := ve m) (phi := phi) (psi := fun h => h) (N := heFill m); auto.
    + intros h [H K]. assert (liveH m (tw h)) by (apply CN; auto). split; [apply CN; auto|]. unfold ro. rewrite (cn_vnx _ CN) by auto. rewrite tw_tw. auto.
    + intros x y [Hx _] [Hy _] E. apply (cn_vorb _ CN); auto.
    + intros h H. apply NXL, TW; auto.
    + intros x y Hx Hy E. apply tw_inj. apply INJ; auto.
    + intros h [H K]. unfold ro. destruct (d h) eqn:E.
      * destruct (PH1 h H E K) as (_ & _ & ->). apply conn_refl.
      * rewrite (PH0 h) by auto. assert (H' : liveH m' h) by (apply LH; auto). rewrite <- NX by auto. apply (conn_step (liveH m') (ro m')); auto.
    + intros x y Hx Hy E. right. rewrite !VE in E by auto. split; [split; auto|]. split; [split; auto|]. split; auto.
      rewrite !PH0 by auto. split; apply conn_refl.
  - intros h H Hm. unfold ext. rewrite FF, FA by auto. pose proof (cn_ebd _ CN h (LO h H) Hm) as K. unfold ext in K. destruct (mg (fa m h)); auto.
    pose proof (MX _ M0). lia.
  - intros h H Hx. unfold ext in Hx. rewrite FF, FA in Hx by auto. destruct (mg (fa m (tw h))) eqn:E; [pose proof (MX _ M0); lia|].
    rewrite VE by auto. pose proof (cn_vbd _ CN h (LO h H) Hx) as K. destruct (VH (ve m h) (LVs h H)) as (_ & _ & _ & ->); auto. rewrite K. auto.
Qed.
End Del.
