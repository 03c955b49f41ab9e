(** separateEdge between two interior vertices *)
From Verif Require Import Base MeshModel MeshSpec MeshBase MeshExec MeshOrbit MeshAlloc MeshFlip MeshThms MeshInsert MeshOpSpec MeshConnect CountSpec MeshCutModel MeshCut1 MeshCut2.
Open Scope Z_scope.

(** the count of interior halfedges set to k *)
Definition setInterior (m : mesh) (k : Z) : mesh :=
  mkMesh (heNext m) (heVertex m) (heFace m) (vHalfedge m) (fHalfedge m) (nHalfedges m) k (nEdges m) (nVertices m) (nFaces m) (nLoops m)
    (heFill m) (eFill m) (vFill m) (fFill m) (bFill m) (heCap m) (eCap m) (vCap m) (fCap m) (compressed m) (cblog m).
(** the last face counted as a boundary loop *)
Definition asLoop (m : mesh) : mesh :=
  mkMesh (heNext m) (heVertex m) (heFace m) (vHalfedge m) (fHalfedge m) (nHalfedges m) (nInterior m) (nEdges m) (nVertices m) (nFaces m - 1) (nLoops m + 1)
    (heFill m) (eFill m) (vFill m) (fFill m - 1) (bFill m + 1) (heCap m) (eCap m) (vCap m) (fCap m) (compressed m) (cblog m).

Lemma newEdge_boundary m m1 h : getNewEdgeTriple m false = Ok (m1, h) -> getNewEdgeTriple m true = Ok (setInterior m1 (nInterior m1 - 1), h).
Proof.
  unfold getNewEdgeTriple. destruct (growEdges m) as [x| |]; cbn [bind]; try discriminate. intros K. injection K as <- <-. unfold setInterior. cbn.
  replace (nInterior x + 1) with (nInterior x + 2 - 1) by lia. reflexivity.
Qed.
Lemma expand_interior m k : expandFaceStorage (setInterior m k) = let* x := expandFaceStorage m in Ok (setInterior x k).
Proof.
  unfold expandFaceStorage. change (fCap (setInterior m k)) with (fCap m). change (bFill (setInterior m k)) with (bFill m). change (fHalfedge (setInterior m k)) with (fHalfedge m).
  change (scoochFaces (setInterior m k)) with (scoochFaces m). destruct (scoochLoops _ _ _ _); cbn [bind]; auto. destruct (scoochFaces m _); reflexivity.
Qed.
Lemma newLoop_face m m2 f k : getNewFace m = Ok (m2, f) -> getNewBoundaryLoop (setInterior m k) = Ok (setInterior (asLoop m2) k, fCap m2 - 1 - bFill m2).
Proof.
  unfold getNewFace, getNewBoundaryLoop. change (fFill (setInterior m k)) with (fFill m). change (nLoops (setInterior m k)) with (nLoops m). change (fCap (setInterior m k)) with (fCap m).
  rewrite expand_interior. destruct (fFill m + nLoops m <? fCap m).
  - cbn [bind]. intros K. injection K as <- <-. unfold asLoop, setInterior. pj. replace (nFaces m + 1 - 1) with (nFaces m) by lia. replace (fFill m + 1 - 1) with (fFill m) by lia. replace (fCap m - 1 - bFill m) with (fCap m - (bFill m + 1)) by lia. reflexivity.
  - destruct (expandFaceStorage m) as [x| |]; cbn [bind]; try discriminate. intros K. injection K as <- <-. unfold asLoop, setInterior. pj. replace (nFaces x + 1 - 1) with (nFaces x) by lia. replace (fFill x + 1 - 1) with (fFill x) by lia. replace (fCap x - 1 - bFill x) with (fCap x - (bFill x + 1)) by lia. reflexivity.
Qed.

Section Sep.
Context (m : mesh) (V : Valid m) (NDL : NoDeadLoops m) (e : Z).
Let he := eHe e. Let t := tw he. Let a := nx m t.
Context (Lh : liveH m he) (IA : ~ onBoundary m (ve m he)) (IB : ~ onBoundary m (ve m t)) (AB : ve m he <> ve m t).

Let TT : tw t = he. Proof. unfold t. apply tw_tw. Qed.
Lemma sep_run : exists m2 s m' p, separateEdge m e = Ok (m', (he, heFill m)) /\ Alloc m m2 s /\ heFill m + 2 <= heCap m2 /\ fFill m + 1 + bFill m <= fCap m2 /\
  liveH m p /\ nx m p = t /\ exists g', ConEff (reset m2 m) g' t a p t [t] /\ PunchEff g' (setInterior m' (nInterior m' - 1)) [t; heFill m + 1] /\ nInterior m' = nInterior m + 1.
Proof.
  pose proof (va_cn _ V) as CN. pose proof (va_st _ V) as ST.
  assert (Lt : liveH m t) by (apply CN; auto). assert (La : liveH m a) by (apply CN; auto).
  assert (It : ~ ext m t) by (intros K; apply IB; exists t; auto).
  destruct (prev_circulator m t V Lt) as (p & Pp & _ & Lp & Np & Fp & _).
  assert (B : forall h, liveH m h -> 0 <= h < heFill m) by (intros h [K _]; exact K).
  assert (Bh := B _ Lh). assert (Bt := B _ Lt). assert (Ba := B _ La). assert (Bp := B _ Lp).
  assert (FAR : 0 <= fa m t < fFill m). { pose proof (st_f _ ST) as KS. destruct (cn_fa _ CN _ Lt) as [[K _]|[K _]]; [exact K|]. exfalso. apply It. unfold ext. clear -K KS. lia. }
  destruct (cn_ve _ CN _ Lh) as [RvA _]. destruct (cn_ve _ CN _ Lt) as [RvB _].
  assert (pt : p <> t).
  { intros K. apply AB. rewrite K in Np. pose proof (cn_vnx _ CN t Lt) as Q. rewrite TT, Np in Q. symmetry. exact Q. }
  destruct (getNewEdgeTriple_alloc m m 0 false (alloc_refl m ST (va_sl _ V))) as (m1 & E1 & A1 & Ar1 & _ & Ct1 & F1).
  injection Ar1 as X1 X2. injection Ct1 as X5 X6 X7 X8 X9 X10. injection F1 as X11 X12 X13 X14 X15 X16 X17.
  destruct (getNewFace_alloc m m1 0 V A1) as (m2 & s & E2 & A2 & _ & Ar2 & FH2 & _ & Ct2 & F2); [rewrite X17; pose proof (st_f _ ST) as K; clear -K FAR; lia|rewrite X10, X15; exact NDL|].
  injection Ar2 as Y1 Y2 Y3. injection Ct2 as Y5 Y6 Y7 Y8 Y9 Y10. injection F2 as Y11 Y12 Y13 Y14 Y15 Y16 Y17 Y18.
  apply newEdge_boundary in E1. apply newLoop_face with (k := nInterior m1 - 1) in E2. clear X1 X2 Y1 Y2 Y3.
  unfold separateEdge. fold he. rewrite eIsBoundary_ok by auto. fold he t. cbn [bind].
  replace (fFill m <=? fa m t) with false by (clear -FAR; lia). cbn [negb guard bind].
  rewrite vertexOf_ok by (destruct ST; clear -st_vert Bh st_he; lia). cbn [bind]. rewrite (vb_false m V) by (auto; apply (cn_ve _ CN); auto). cbn [bind].
  rewrite vertexOf_ok by (destruct ST; clear -st_vert Bt st_he; lia). cbn [bind]. rewrite (vb_false m V) by (auto; apply (cn_ve _ CN); auto). cbn [bind andb negb]. fold t.
  rewrite next_ok by (destruct ST; clear -st_next Bt st_he; lia). cbn [bind]. fold a. rewrite Pp. cbn [bind].
  rewrite faceOf_ok by (destruct ST; clear -st_face Bh st_he; lia). cbn [bind]. rewrite faceOf_ok by (destruct ST; clear -st_face Bt st_he; lia). cbn [bind].
  rewrite E1. cbn [bind]. rewrite E2. cbn [bind].
  assert (TW : tw (heFill m) = heFill m + 1) by (apply tw_even; destruct ST; clear -st_edge; lia). rewrite TW.
  pose proof (al_st _ _ _ A2) as [T1 T2 T3 T4 T5 T6 T7 T8 T9].
  assert (R1 : heFill m + 2 <= heCap m2) by (clear -T6 Y11 X11; lia).
  assert (R2 : fFill m + 1 + bFill m <= fCap m2) by (clear -T9 Y14 Y15 X14 X15; lia).
  assert (NX2 : forall h, 0 <= h < heFill m -> nx m2 h = nx m h) by (apply A2).
  assert (VE2 : forall h, 0 <= h < heFill m -> ve m2 h = ve m h) by (apply A2).
  assert (VF2 : vFill m <= vCap m2) by (rewrite Y18, X16; destruct ST; clear -st_v; lia).
  assert (BF : 0 <= bFill m) by (pose proof (st_f _ ST) as K; clear -K; lia).
  assert (BFe : bFill m2 = bFill m) by (clear -Y15 X15; lia). rewrite BFe.
  set (hA := heFill m) in *. set (hB := hA + 1) in *. set (fN := fFill m) in *. set (bl := fCap m2 - 1 - bFill m) in *.
  set (q := ve m he) in *. set (r := ve m t) in *.
  set (X := setInterior (asLoop m2) (nInterior m1 - 1)) in *.
  assert (BND : 0 <= a < zlen (heNext m2) /\ 0 <= t < zlen (heNext m2) /\ 0 <= t < zlen (heFace m2) /\
     0 <= p < zlen (heNext m2) /\ 0 <= hA < zlen (heNext m2) /\ 0 <= hA < zlen (heVertex m2) /\ 0 <= hA < zlen (heFace m2) /\
     0 <= hB < zlen (heNext m2) /\ 0 <= hB < zlen (heVertex m2) /\ 0 <= hB < zlen (heFace m2) /\
     0 <= fN < zlen (fHalfedge m2) /\ 0 <= bl < zlen (fHalfedge m2) /\ 0 <= fa m t < zlen (fHalfedge m2) /\ 0 <= q < zlen (vHalfedge m2) /\ 0 <= r < zlen (vHalfedge m2)).
  { clear -T1 T2 T3 T4 T5 T6 R1 R2 Ba Bt Bp FAR BF RvA RvB VF2 Bh. subst hB bl. lia. }
  assert (BX : 0 <= a < zlen (heNext X) /\ 0 <= t < zlen (heNext X) /\ 0 <= t < zlen (heFace X) /\
     0 <= p < zlen (heNext X) /\ 0 <= hA < zlen (heNext X) /\ 0 <= hA < zlen (heVertex X) /\ 0 <= hA < zlen (heFace X) /\
     0 <= hB < zlen (heNext X) /\ 0 <= hB < zlen (heVertex X) /\ 0 <= hB < zlen (heFace X) /\
     0 <= fN < zlen (fHalfedge X) /\ 0 <= bl < zlen (fHalfedge X) /\ 0 <= fa m t < zlen (fHalfedge X) /\ 0 <= q < zlen (vHalfedge X) /\ 0 <= r < zlen (vHalfedge X)) by exact BND.
  do 4 (rewrite setNext_ok by (clear -BX; bnd); cbn [bind]).
  do 2 (rewrite setVertex_ok by (clear -BX; bnd); cbn [bind]).
  do 3 (rewrite setFace_ok by (clear -BX; bnd); cbn [bind]).
  do 2 (rewrite setFHe_ok by (clear -BX; bnd); cbn [bind]).
  do 2 (rewrite setVHe_ok by (clear -BX; bnd); cbn [bind]).
  match goal with |- context [Ok (?x, (he, hA))] => set (m' := x) end.
  exists m2, s, m', p. split; [reflexivity|]. split; [exact A2|]. split; [exact R1|]. split; [exact R2|]. split; [exact Lp|]. split; [exact Np|].
  set (g' := with_fhe (with_fhe (with_face (with_face (with_face (with_vertex (with_vertex (with_next (with_next (with_next (with_next m2 t hB) hB t) hA a) p hA) hA r) hB q) t fN) hA (fa m t)) hB fN) (fa m t) hA) fN hB).
  exists g'.
  assert (EQ : forall x y, x <> y -> (x =? y) = false) by (intros x y K; apply Z.eqb_neq; exact K).
  assert (EQ2 : forall x y, y <> x -> (x =? y) = false) by (intros x y K; apply Z.eqb_neq; auto).
  assert (HH : hA <> hB) by (clear; subst hB; lia).
  assert (SH : forall x, 0 <= x < hA -> x <> hA /\ x <> hB) by (clear; subst hB; intros; lia).
  destruct (SH _ Bt) as [S1 S2]. destruct (SH _ Ba) as [S3 S4]. destruct (SH _ Bp) as [S5 S6]. destruct (SH _ Bh) as [S7 S8].
  assert (FF : fa m t <> fN) by (clear -FAR; lia).
  assert (FF2 : fa m t <> bl) by (clear -FAR R2; subst bl; lia).
  assert (FA2 : fa m2 t = fa m t). { rewrite (al_fa _ _ _ A2) by auto. fold fN. clear -FAR. destruct (Z.leb_spec fN (fa m t)); lia. }
  assert (Va : ve m a = q). { unfold a. rewrite (cn_vnx _ CN) by auto. rewrite TT. reflexivity. }
  split; [|split].
  - constructor; unfold reset; proj; fold (reset m2 m); fold hA; fold fN; fold hB;
     change (nx (reset m2 m)) with (nx m2); change (ve (reset m2 m)) with (ve m2); change (fa (reset m2 m)) with (fa m2);
     change (vh (reset m2 m)) with (vh m2); change (fh (reset m2 m)) with (fh m2); change (fFill (reset m2 m)) with (fFill m); fold fN;
     rewrite ?VE2, ?FA2 by auto; auto.
    + unfold g'; proj; rewrite Y5, Y6, Y7, Y8, Y9, Y10, X5, X6, X7, X8, X9, X10. reflexivity.
    + unfold g'; proj; rewrite Y11, Y12, Y13, Y14, Y15, X11, X12, X13, X14, X15. reflexivity.
    + unfold lens, g'. proj. rewrite ?zlen_updZ. reflexivity.
    + clear -BND EQ EQ2 HH S1 S2 S3 S4 S5 S6. unfold g'. view. rewrite ?EQ2, ?Z.eqb_refl by auto. reflexivity.
    + clear -BND EQ EQ2 HH S1 S2 S3 S4 S5 S6. unfold g'. view. rewrite ?EQ2, ?Z.eqb_refl by auto. reflexivity.
    + clear -BND EQ EQ2 HH S1 S2 S3 S4 S5 S6. unfold g'. view. rewrite ?Z.eqb_refl by auto. reflexivity.
    + clear -BND EQ EQ2 HH pt S1 S2 S3 S4 S5 S6. unfold g'. view. rewrite ?EQ2, ?EQ, ?Z.eqb_refl by auto. reflexivity.
    + intros h Hh K1 K2. destruct (SH _ Hh). clear -BND EQ K1 K2 H H0. unfold g'. view. rewrite ?EQ by auto. reflexivity.
    + clear -BND EQ EQ2 HH. unfold g'. view. rewrite (EQ hA hB), Z.eqb_refl by auto. reflexivity.
    + rewrite Va. clear -BND EQ EQ2 HH. unfold g'. view. rewrite Z.eqb_refl by auto. reflexivity.
    + intros h Hh. destruct (SH _ Hh). clear -BND EQ H H0. unfold g'. view. rewrite ?EQ by auto. reflexivity.
    + clear -BND EQ EQ2 HH. unfold g'. view. rewrite (EQ hA hB), Z.eqb_refl by auto. reflexivity.
    + clear -BND EQ EQ2 HH. unfold g'. view. rewrite Z.eqb_refl by auto. reflexivity.
    + intros h Hh. destruct (SH _ Hh). clear -BND EQ H H0. unfold g'. view. rewrite ?(EQ h hA), ?(EQ h hB) by auto. cbn [inl existsb]. unfold inl. cbn [existsb]. rewrite orb_false_r. reflexivity.
    + clear -BND EQ EQ2 FF. unfold g'. view. rewrite (EQ (fa m t) fN) by auto. rewrite Z.eqb_refl. reflexivity.
    + clear -BND EQ EQ2 FF. unfold g'. view. rewrite Z.eqb_refl. reflexivity.
    + intros f K1 K2. clear -BND EQ EQ2 FF K1 K2. unfold g'. view. rewrite ?EQ by auto. reflexivity.
  - assert (Gf : fFill g' = fN + 1) by (unfold g'; proj; clear -Y14 X14; subst fN; lia).
    assert (Gb : bFill g' = bFill m) by (unfold g'; proj; exact BFe).
    assert (Gc : fCap g' = fCap m2) by reflexivity.
    assert (Gh : heFill g' = hA + 2) by (unfold g'; proj; clear -Y11 X11; subst hA; lia).
    assert (GVo : forall h, 0 <= h < hA -> ve g' h = ve m h).
    { intros h Hh. destruct (SH _ Hh). rewrite <- VE2 by auto. clear -BND EQ H H0. unfold g'. view. rewrite ?EQ by auto. reflexivity. }
    assert (GVB : ve g' hB = q) by (clear -BND EQ; unfold g'; view; rewrite Z.eqb_refl; reflexivity).
    assert (GVA : ve g' hA = r) by (clear -BND EQ HH; unfold g'; view; rewrite (EQ hA hB), Z.eqb_refl by auto; reflexivity).
    constructor; rewrite ?Gf, ?Gb, ?Gc, ?Gh; fold bl; replace (fN + 1 - 1) with fN by (clear; lia).
    + unfold setInterior, m', g', X; proj; unfold asLoop, setInterior; proj. cbn [length]. f_equal. f_equal. f_equal. f_equal. f_equal. clear -Y6 X6. lia.
    + unfold setInterior, m', g', X; proj; unfold asLoop, setInterior; proj. rewrite Y14, BFe, X14, Y11, Y12, Y13, X11, X12, X13. fold fN hA. repeat f_equal; clear; lia.
    + reflexivity.
    + unfold lens, setInterior, m', g', X; proj; unfold asLoop, setInterior; proj. rewrite ?zlen_updZ. reflexivity.
    + intros h Hh. change (nx (setInterior m' (nInterior m' - 1)) h) with (nx m' h). clear -BND BX. unfold m', g'. view. reflexivity.
    + intros h Hh. change (ve (setInterior m' (nInterior m' - 1)) h) with (ve m' h). clear -BND BX. unfold m', g'. view. reflexivity.
    + intros h Hh. change (fa (setInterior m' (nInterior m' - 1)) h) with (fa m' h). assert (Z1 : fa X h = fa m2 h) by reflexivity. clear -BND BX EQ HH S1 S2 Z1. unfold m', g', inl. view. cbn [existsb]. rewrite Z1.
      destruct (Z.eqb_spec h hB) as [->|]; [rewrite orb_true_r; auto|]. destruct (Z.eqb_spec h hA) as [->|]; [rewrite (EQ hA t) by auto; reflexivity|]. destruct (h =? t); reflexivity.
    + intros x [<-|[<-|[]]]; change (vh (setInterior m' (nInterior m' - 1))) with (vh m').
      * rewrite TT. rewrite GVo by auto. fold q. clear -BX EQ EQ2 AB. unfold m'. view. rewrite (EQ q r), Z.eqb_refl by auto. reflexivity.
      * rewrite <- TW, tw_tw. rewrite GVA. clear -BX EQ EQ2 AB. unfold m'. view. rewrite Z.eqb_refl by auto. reflexivity.
    + intros v K. change (vh (setInterior m' (nInterior m' - 1))) with (vh m').
      assert (K1 : r <> v) by (pose proof (K t (or_introl eq_refl)) as Q; rewrite GVo in Q by auto; exact Q).
      assert (K2 : q <> v) by (pose proof (K hB (or_intror (or_introl eq_refl))) as Q; rewrite GVB in Q; exact Q).
      assert (Z1 : vh X v = vh m2 v) by reflexivity. clear -BX BND EQ2 K1 K2 Z1. unfold m', g'. view. rewrite ?EQ2 by auto. exact Z1.
    + change (fh (setInterior m' (nInterior m' - 1))) with (fh m'). left. clear -BX. unfold m'. view. rewrite Z.eqb_refl. reflexivity.
    + intros f K1 K2. change (fh (setInterior m' (nInterior m' - 1))) with (fh m'). assert (Z1 : fh X f = fh m2 f) by reflexivity.
      clear -BX BND EQ K1 K2 Z1. unfold m', g'. view. rewrite (EQ f bl), (EQ f fN), Z1 by auto. reflexivity.
    + intros K. change (fh (setInterior m' (nInterior m' - 1))) with (fh m'). assert (Z1 : fh X fN = fh m2 fN) by reflexivity.
      assert (Z2 : fh m' fN = fh m2 fN). { clear -BX BND EQ EQ2 K FF Z1. unfold m'. view. rewrite (EQ fN bl), (EQ2 fN (fa m t)), Z1 by auto. reflexivity. }
      rewrite Z2. pose proof (al_fg _ _ _ A2 fN) as Q. rewrite BFe in Q. fold hA in Q. fold fN in Q. assert (Q1 : 0 <= fN) by (clear -FAR; lia). specialize (Q Q1 ltac:(clear -K R2; subst bl; lia)).
      clear -Q Bh. lia.
  - unfold m', X; proj; unfold asLoop, setInterior; proj. clear -X6. lia.
Qed.

Lemma sep_valid : exists m', separateEdge m e = Ok (m', (he, heFill m)) /\ Valid (setInterior m' (nInterior m)) /\ nInterior m' = nInterior m + 1.
Proof.
  destruct sep_run as (m2 & s & m' & p & R & A & R1 & R2 & Lp & Np & g' & E & P & N). exists m'. split; [exact R|]. split; [|exact N].
  replace (nInterior m) with (nInterior m' - 1) by (clear -N; lia).
  pose proof (va_cn _ V) as CN. pose proof (va_st _ V) as ST. pose proof (reset_valid m m2 s V A) as VG.
  assert (Lt : liveH m t) by (apply CN; auto). assert (La : liveH m a) by (apply CN; auto).
  assert (It : ~ ext m t) by (intros K; apply IB; exists t; auto).
  assert (LG : forall h, liveH (reset m2 m) h <-> liveH m h) by (apply (reset_liveH m m2 s A)).
  assert (B : forall h, liveH m h -> 0 <= h < heFill m) by (intros h [K _]; exact K).
  assert (NG : forall h, liveH m h -> nx (reset m2 m) h = nx m h) by (intros; eapply reset_nx; eauto).
  assert (WG : forall h, liveH m h -> ve (reset m2 m) h = ve m h) by (intros; eapply reset_ve; eauto).
  assert (FE : forall x y, liveH m x -> liveH m y -> (fa (reset m2 m) x = fa (reset m2 m) y <-> fa m x = fa m y)) by (apply (reset_fa_eq m m2 s V A)).
  assert (pt : p <> t).
  { intros K. apply AB. rewrite K in Np. pose proof (cn_vnx _ CN t Lt) as Q. rewrite TT, Np in Q. symmetry. exact Q. }
  assert (ta : t <> a). { intros K. apply pt. apply (cn_inj _ CN); auto. rewrite Np. exact K. }
  destruct (split_cycle m t a V Lt La (eq_sym (cn_fnx _ CN t Lt)) ta) as (l1 & l2 & C1 & C2 & ND & CM & n1 & n2 & nb & _).
  assert (l1 = [t]) as ->.
  { destruct l1 as [|x [|y l1]]; [congruence| |]; destruct C1 as [-> C1]; auto. destruct C1 as [-> C1]. exfalso. apply nb. right; left. reflexivity. }
  assert (It' : ~ ext (reset m2 m) t) by (rewrite (reset_ext m m2 s A) by auto; exact It).
  assert (VC : Valid g').
  { eapply (con_valid (reset m2 m) g' t a p t [t] l2); eauto; try (apply LG; auto); try (apply NG; auto).
    - rewrite NG; auto.
    - apply FE; auto. symmetry. apply (cn_fnx _ CN); auto.
    - split; auto. apply NG; auto.
    - eapply chain_ext; [|exact C2]. intros x Hx. symmetry. apply NG. apply CM, in_or_app; auto.
    - intros x. rewrite CM, LG. split; intros [K1 K2]; (split; [auto|]); apply FE; auto. }
  pose proof E as E0. destruct E0 as [Cn Fl Cp Le NA NB Npp Nqq NO VA VB VO FA FB FO HV H1 H2 HO].
  injection Fl as F1 F2 F3 F4 F5. change (heFill (reset m2 m)) with (heFill m) in *. change (fFill (reset m2 m)) with (fFill m) in *.
  set (hA := heFill m) in *. set (hB := hA + 1) in *.
  assert (LHg : forall h, liveH g' h -> liveH m h \/ h = hA \/ h = hB).
  { intros h [K1 K2]. rewrite F1 in K1. assert (0 <= h < hA \/ h = hA \/ h = hB) as [K|K] by (subst hB; clear -K1; lia); auto. left. split; auto. intros K3. apply K2.
    destruct (Z.eq_dec h p) as [->|Kp]; [destruct Lp as [_ Lp]; congruence|]. destruct (Z.eq_dec h t) as [->|Kt]; [destruct Lt as [_ Lt']; congruence|].
    rewrite NO by auto. rewrite (reset_nx m m2 s A) by auto. exact K3. }
  assert (LHo : forall h, liveH m h -> liveH g' h).
  { intros h Hh. split; [rewrite F1; pose proof (B h Hh); fold hA in H; clear -H; lia|]. pose proof (B _ Lt) as Bt.
    destruct (Z.eq_dec h p) as [->|Kp]; [rewrite Npp; fold hA in Bt; clear -Bt; lia|]. destruct (Z.eq_dec h t) as [->|Kt]; [rewrite Nqq; fold hA in Bt; subst hB; clear -Bt; lia|].
    rewrite NO by (auto; apply B; auto). rewrite NG by auto. apply Hh. }
  assert (RT : 0 <= t < hA) by (apply B; auto).
  assert (LHB : liveH g' hB). { split; [rewrite F1; subst hB; clear -RT; lia|]. rewrite NB. clear -RT. lia. }
  assert (Vt : ve g' t = ve m t) by (rewrite VO by auto; apply WG; auto).
  assert (VhB : ve g' hB = ve m he). { rewrite VB, WG by auto. unfold a. rewrite (cn_vnx _ CN) by auto. rewrite TT. reflexivity. }
  assert (VhA : ve g' hA = ve m t) by (rewrite VA; apply WG; auto).
  assert (ExG : forall h, liveH m h -> ext g' h -> ext m h).
  { intros h Hh K. unfold ext in *. rewrite F4 in K. rewrite FO in K by (apply B; auto). destruct (inl h [t]); [exfalso; clear -K; lia|].
    apply (reset_ext m m2 s A h Hh). unfold ext. change (fFill (reset m2 m)) with (fFill m). clear -K. lia. }
  assert (FTr : fa (reset m2 m) t < fFill m). { unfold ext in It'. change (fFill (reset m2 m)) with (fFill m) in It'. clear -It'. lia. }
  eapply punch_valid; [exact VC| | | | |exact P].
  - constructor; [|constructor; [|constructor]]; cbn; auto. intros [K|[]]. subst hB. clear -K RT. lia.
  - intros x. rewrite F4. replace (fFill m + 1 - 1) with (fFill m) by (clear; lia). split.
    + intros [<-|[<-|[]]]; [split; [apply LHo; auto|]; rewrite FO by auto; cbn; rewrite Z.eqb_refl; reflexivity|]. fold hA hB. split; auto.
    + intros [K1 K2]. apply LHg in K1 as [K|[->| ->]].
      * rewrite FO in K2 by (apply B; auto). unfold inl in K2. cbn [existsb] in K2. rewrite orb_false_r in K2. destruct (Z.eqb_spec x t) as [->|Kx]; [left; auto|]. exfalso.
        pose proof (cn_fa _ (va_cn _ VG) x (proj2 (LG x) K)) as Q. rewrite K2 in Q. destruct Q as [[Q _]|[Q _]]; change (fFill (reset m2 m)) with (fFill m) in Q; change (bFill (reset m2 m)) with (bFill m) in Q; change (fCap (reset m2 m)) with (fCap m2) in Q; clear -Q R2; lia.
      * exfalso. rewrite FA in K2. clear -K2 FTr. lia.
      * right; left; auto.
  - intros x [<-|[<-|[]]].
    + unfold t, he, eHe. rewrite tw_even by (clear; lia). clear. lia.
    + destruct ST. subst hA. clear -st_edge. lia.
  - intros x h Hx Hh K X. apply LHg in Hh as [Hh|[->| ->]].
    + apply ExG in X; auto. rewrite VO in K by (apply B; auto). rewrite WG in K by auto. destruct Hx as [<-|[<-|[]]].
      * apply IB. exists h. split; auto. split; auto. rewrite K. exact Vt.
      * apply IA. exists h. split; auto. split; auto. rewrite K. exact VhB.
    + unfold ext in X. rewrite F4, FA in X. clear -X FTr. lia.
    + unfold ext in X. rewrite F4, FB in X. clear -X. lia.
Qed.
End Sep.

Section SepSpec.
Context (m : mesh) (V : Valid m) (NDL : NoDeadLoops m) (e : Z).
Let he := eHe e. Let t := tw he. Let a := nx m t. Let n := heFill m. Let u := heFill m + 1.
Context (Lh : liveH m he) (IA : ~ onBoundary m (ve m he)) (IB : ~ onBoundary m (ve m t)) (AB : ve m he <> ve m t).
Lemma sep_spec : exists m', separateEdge m e = Ok (m', (he, n)) /\ Valid (setInterior m' (nInterior m)) /\ nInterior m' = nInterior m + 1 /\
  nVertices m' = nVertices m /\ nEdges m' = nEdges m + 1 /\ nHalfedges m' = nHalfedges m + 2 /\ nFaces m' = nFaces m /\ nLoops m' = nLoops m + 1 /\
  ~ liveH m n /\ ~ liveH m u /\ tw n = u /\ (forall h, liveH m' h <-> liveH m h \/ h = n \/ h = u) /\
  ve m' n = ve m t /\ ve m' u = ve m he /\ (forall h, liveH m h -> ve m' h = ve m h) /\
  side m' n = side m t /\ side m' t = LoopSide (bFill m) /\ side m' u = LoopSide (bFill m) /\ (forall h, liveH m h -> h <> t -> side m' h = side m h) /\
  nx m' n = a /\ nx m' t = u /\ nx m' u = t /\ (forall h, liveH m h -> nx m h = t -> nx m' h = n) /\ (forall h, liveH m h -> h <> t -> nx m h <> t -> nx m' h = nx m h).
Proof.
  destruct (sep_valid m V NDL e Lh IA IB AB) as (m0 & R0 & V0 & N0).
  destruct (sep_run m V NDL e Lh IA IB AB) as (m2 & s & m' & p & R & A & R1 & R2 & Lp & Np & g' & E & P & N). rewrite R in R0. injection R0 as <-.
  exists m'. split; [exact R|]. split; [exact V0|]. split; [exact N0|]. clear R V0 N0 N.
  pose proof (va_cn _ V) as CN. pose proof (va_st _ V) as ST.
  assert (B : forall h, liveH m h -> 0 <= h < n) by (intros h [K _]; exact K).
  assert (Lt : liveH m t) by (apply CN; auto). pose proof (B _ Lt) as Bt. pose proof (B _ Lp) as Bp.
  assert (NG : forall h, 0 <= h < n -> nx (reset m2 m) h = nx m h) by (intros; eapply reset_nx; eauto).
  assert (WG : forall h, 0 <= h < n -> ve (reset m2 m) h = ve m h) by (intros; eapply reset_ve; eauto).
  destruct E as [Cn Fl Cp _ NA NB Npp Nqq NO VA VB VO FA FB FO _ _ _ _].
  injection Cn as D1 D2 D3 D4 D5 D6. injection Fl as F1 F2 F3 F4 F5. injection Cp as C1 C2 C3 C4.
  destruct P as [Cn Fl Cp _ PN PV PF _ _ _ _ _]. injection Cn as G1 G2 G3 G4 G5 G6. injection Fl as H1 H2 H3 H4 H5. injection Cp as I1 I2 I3 I4.
  set (m1 := setInterior m' (nInterior m' - 1)) in *.
  change (heFill (reset m2 m)) with n in *. change (n + 1) with u in *. change (fFill (reset m2 m)) with (fFill m) in *. change (fCap (reset m2 m)) with (fCap m2) in *. change (bFill (reset m2 m)) with (bFill m) in *.
  change (nHalfedges (reset m2 m)) with (nHalfedges m) in *. change (nEdges (reset m2 m)) with (nEdges m) in *. change (nVertices (reset m2 m)) with (nVertices m) in *. change (nFaces (reset m2 m)) with (nFaces m) in *. change (nLoops (reset m2 m)) with (nLoops m) in *.
  fold he t in NA, NB, Npp, Nqq, NO, VA, VB, VO, FA, FB, FO, PF. fold a in NA, VB.
  change (nx m1) with (nx m') in *. change (ve m1) with (ve m') in *. change (fa m1) with (fa m') in *. change (heFill m1) with (heFill m') in *. change (fFill m1) with (fFill m') in *. change (fCap m1) with (fCap m') in *.
  change (nHalfedges m1) with (nHalfedges m') in *. change (nEdges m1) with (nEdges m') in *. change (nVertices m1) with (nVertices m') in *. change (nFaces m1) with (nFaces m') in *. change (nLoops m1) with (nLoops m') in *.
  change (heFill m + 1) with u in PF.
  rewrite F1 in *. rewrite F4, F5, C4 in *.
  assert (Ru : u = n + 1) by reflexivity. assert (Rn : 0 <= n < n + 2) by (clear -Bt; lia). assert (Rw : 0 <= u < n + 2) by (clear -Rn Ru; lia).
  assert (RO : forall h, 0 <= h < n -> 0 <= h < n + 2) by (clear; intros; lia).
  assert (It : ~ ext m t) by (intros K; apply IB; exists t; auto). unfold ext in It.
  split; [clear -G4 D4; lia|]. split; [clear -G3 D3; lia|]. split; [clear -G1 D1; lia|]. split; [clear -G5 D5; lia|]. split; [clear -G6 D6; lia|].
  split; [intros [K _]; fold n in K; clear -K; lia|]. split; [intros [K _]; fold n in K; clear -K Ru; lia|]. split; [apply tw_even; unfold n; destruct ST; clear -st_edge; lia|].
  assert (NXO : forall h, 0 <= h < n -> nx m' h = if h =? t then u else if h =? p then n else nx m h).
  { intros h Hh. rewrite PN by auto. destruct (Z.eqb_spec h t) as [->|Kt]; auto. destruct (Z.eqb_spec h p) as [->|Kp]; auto. rewrite NO by auto. auto. }
  split. { intros h. unfold liveH at 1. rewrite H1. split.
    - intros [K1 K2]. assert (0 <= h < n \/ h = n \/ h = u) as [K|K] by (clear -K1 Ru; lia); auto. left. split; auto. rewrite NXO in K2 by auto.
      destruct (Z.eqb_spec h t) as [->|Kt]; [apply Lt|]. destruct (Z.eqb_spec h p) as [->|Kp]; [apply Lp|]. auto.
    - intros [K|[->| ->]].
      + pose proof (B h K) as Bh. split; auto. rewrite NXO by auto. destruct (Z.eqb_spec h t) as [->|Kt]; [clear -Rw; lia|]. destruct (Z.eqb_spec h p) as [->|Kp]; [clear -Rn; lia|]. apply K.
      + split; auto. rewrite PN, NA by auto. pose proof (B a (cn_nx _ CN t Lt)) as K. clear -K. lia.
      + split; auto. rewrite PN, NB by auto. clear -Bt. lia. }

  split; [rewrite PV, VA by auto; apply WG; auto|].
  split. { rewrite PV, VB by auto. rewrite WG by (apply B, CN; auto). unfold a. rewrite (cn_vnx _ CN) by auto. unfold t. rewrite tw_tw. reflexivity. }
  split; [intros h Hh; pose proof (B h Hh); rewrite PV, VO by auto; apply WG; auto|].
  assert (FH : fFill m' = fFill m) by (clear -H4; lia).
  assert (BLr : fFill m <= fCap m2 - 1 - bFill m) by (clear -R2; lia).
  assert (SL : forall h, fa m' h = fCap m2 - 1 - bFill m -> side m' h = LoopSide (bFill m)).
  { intros h K. unfold side. rewrite FH, K, I4. destruct (Z.leb_spec (fFill m) (fCap m2 - 1 - bFill m)); [f_equal; clear; lia|exfalso; clear -H BLr; lia]. }
  assert (tu : n <> t /\ n <> u /\ t <> u) by (clear -Bt Ru; lia). destruct tu as (nt & nu & tu).
  assert (FT : fa (reset m2 m) t = fa m t). { rewrite (reset_fa m m2 s A) by auto. destruct (Z.leb_spec (fFill m) (fa m t)); [contradiction|auto]. }
  split. { unfold side. rewrite FH, PF by auto. unfold inl. cbn [existsb]. replace (n =? t) with false by (clear -nt; lia). replace (n =? u) with false by (clear -nu; lia). cbn [orb]. rewrite FA, FT.
    destruct (Z.leb_spec (fFill m) (fa m t)); [contradiction|auto]. }
  split; [apply SL; rewrite PF by auto; unfold inl; cbn [existsb]; rewrite Z.eqb_refl; reflexivity|].
  split; [apply SL; rewrite PF by auto; unfold inl; cbn [existsb]; rewrite Z.eqb_refl, orb_true_r; reflexivity|].
  split. { intros h Hh Kt. pose proof (B h Hh) as Bh. rewrite <- (reset_side m m2 s h A Hh). unfold side. rewrite FH, I4. change (fFill (reset m2 m)) with (fFill m). change (fCap (reset m2 m)) with (fCap m2). rewrite PF by auto.
    unfold inl. cbn [existsb]. replace (h =? t) with false by (clear -Kt; lia). replace (h =? u) with false by (clear -Bh Ru; lia). cbn [orb]. rewrite FO by auto. unfold inl. cbn [existsb]. replace (h =? t) with false by (clear -Kt; lia). reflexivity. }
  split; [rewrite PN, NA by auto; reflexivity|]. split; [rewrite PN by auto; exact Nqq|]. split; [rewrite PN by auto; exact NB|].
  assert (pt : p <> t).
  { intros K. apply AB. rewrite K in Np. pose proof (cn_vnx _ CN t Lt) as Q. assert (TT : tw t = he) by (apply tw_tw). rewrite TT in Q. rewrite <- Q. change (nx m t = t) in Np. rewrite Np. reflexivity. }
  split.
  - intros h Hh K. assert (h = p) as -> by (apply (cn_inj _ CN); auto; rewrite Np; exact K). rewrite NXO by auto. replace (p =? t) with false by (clear -pt; lia). rewrite Z.eqb_refl. reflexivity.
  - intros h Hh K1 K2. rewrite NXO by auto. replace (h =? t) with false by (clear -K1; lia). destruct (Z.eqb_spec h p) as [->|]; auto. contradiction.
Qed.
End SepSpec.
