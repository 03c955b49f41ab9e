(** splitEdgeTriangular and triangulate: compositions of insertVertexAlongEdge and connectVertices. *)
From Verif Require Import Base MeshModel MeshModel2 MeshSpec MeshBase MeshExec MeshOrbit MeshFlip MeshOpSpec MeshThms MeshConnect MeshRemoveVertex.
Open Scope Z_scope.

Lemma ext_side m h : ext m h <-> exists l, side m h = LoopSide l.
Proof. unfold ext, side. destruct (Z.leb_spec (fFill m) (fa m h)); split; intros; eauto; try lia. destruct H0; discriminate. Qed.
Lemma side_fa m h g : fa m h = fa m g -> side m h = side m g.
Proof. unfold side. intros ->. auto. Qed.
Lemma side_ext m h m' h' : side m h = side m' h' -> (ext m h <-> ext m' h').
Proof. intros E. rewrite !ext_side, E. tauto. Qed.
Lemma face_side m h : ~ ext m h -> side m h = FaceSide (fa m h).
Proof. unfold ext, side. destruct (Z.leb_spec (fFill m) (fa m h)); auto; lia. Qed.
Lemma fa_side m h g : side m h = side m g -> fa m h = fa m g.
Proof. unfold side. destruct (fFill m <=? fa m h), (fFill m <=? fa m g); intros E; try discriminate; injection E; lia. Qed.

Lemma isTriangle_ok m h : Valid m -> liveH m h -> isTriangle m (fa m h) = Ok (nx m (nx m (nx m h)) =? h).
Proof.
  intros V L. pose proof (va_cn _ V) as CN. pose proof (va_st _ V) as ST. assert (LF : liveFL m (fa m h)) by (apply CN; auto).
  destruct (cn_fh _ CN _ LF) as [L0 F0]. unfold isTriangle. assert (0 <= fa m h < zlen (fHalfedge m)) by (apply liveFL_bnd; auto).
  rewrite fHe_ok by auto. cbn [bind]. set (a := fh m (fa m h)) in *.
  rewrite next_ok by (apply (liveH_bnd m V); auto). cbn [bind]. rewrite next_ok by (apply (liveH_bnd m V); apply CN; auto). cbn [bind].
  rewrite next_ok by (apply (liveH_bnd m V); apply CN; apply CN; auto). cbn [bind]. f_equal.
  destruct (cn_forb _ CN a h L0 L F0) as (n & Hn). rewrite <- Hn. clear - CN L0.
  assert (K : liveH m (Nat.iter n (nx m) a) /\ (nx m (nx m (nx m (Nat.iter n (nx m) a))) = Nat.iter n (nx m) a <-> nx m (nx m (nx m a)) = a)).
  { induction n as [|n [L IH]]; [cbn; tauto|]. cbn [Nat.iter]. change (Nat.iter (S n) (nx m) a) with (nx m (Nat.iter n (nx m) a)). split; [apply CN; auto|]. rewrite <- IH. split; intros E.
    - apply (cn_inj _ CN); auto. repeat apply CN; auto.
    - rewrite E. auto. }
  destruct K as [_ K]. destruct (Z.eqb_spec a (nx m (nx m (nx m a)))), (Z.eqb_spec (nx m (nx m (nx m (Nat.iter n (nx m) a)))) (Nat.iter n (nx m) a)) as [e'|n']; auto.
  - exfalso. apply n'. apply K. symmetry. exact e.
  - exfalso. apply n0. symmetry. apply K. exact e'.
Qed.

(** connecting opposite corners of a quadrilateral *)
Lemma connect_quad m a : Valid m -> NoDeadLoops m -> liveH m a -> ~ ext m a ->
  let x := nx m a in let y := nx m x in let z := nx m y in nx m z = a -> x <> a -> y <> a ->
  let n := heFill m in let t := heFill m + 1 in let f := fFill m in
  exists m', connectVertices m a y = Ok (m', n) /\ Valid m' /\ NoDeadLoops m' /\
    (nVertices m' = nVertices m /\ nEdges m' = nEdges m + 1 /\ nHalfedges m' = nHalfedges m + 2 /\ nInterior m' = nInterior m + 2 /\ nFaces m' = nFaces m + 1 /\ nLoops m' = nLoops m) /\
    heFill m' = heFill m + 2 /\ fFill m' = fFill m + 1 /\
    (forall h, liveH m' h <-> liveH m h \/ h = n \/ h = t) /\ (forall v, liveV m' v <-> liveV m v) /\ (forall g, liveF m' g <-> liveF m g \/ g = f) /\ (forall i, liveBL m' i <-> liveBL m i) /\
    (ve m' n = ve m a /\ ve m' t = ve m y /\ forall h, liveH m h -> ve m' h = ve m h) /\
    (nx m' n = y /\ nx m' y = z /\ nx m' z = n /\ nx m' a = x /\ nx m' x = t /\ nx m' t = a) /\
    (side m' n = side m a /\ side m' y = side m a /\ side m' z = side m a /\ side m' a = FaceSide f /\ side m' x = FaceSide f /\ side m' t = FaceSide f) /\
    (forall h, liveH m h -> fa m h <> fa m a -> nx m' h = nx m h /\ side m' h = side m h) /\
    (forall v, liveV m v -> vh m' v = vh m v).
Proof.
  intros V ND La NE x y z Ez Nx Ny n t f. pose proof (va_cn _ V) as CN.
  assert (Lx : liveH m x) by (apply CN; auto). assert (Ly : liveH m y) by (apply CN; auto). assert (Lz : liveH m z) by (apply CN; auto).
  assert (Nxy : x <> y). { intros E. apply Nx. symmetry. apply (cn_inj _ CN); auto; exact E. }
  assert (Nza : z <> a). { intros E. apply Nx. rewrite E in Ez. exact Ez. }
  assert (Fx : fa m x = fa m a) by (apply (cn_fnx _ CN); auto). assert (Fy : fa m y = fa m a) by (rewrite <- Fx; apply (cn_fnx _ CN); auto).
  destruct (connect_spec m a y V ND La Ly (eq_sym Fy) NE (fun K => Ny (eq_sym K)) Nxy Nza) as
    (m' & R & V' & ND' & C1 & C2 & C3 & C4 & C5 & C6 & D1 & D2 & D3 & D4 & LH & LV & LF & LB & VN & VT & VO & XN & XT & XA & XB & XO & SN & ST & SF & SO & HV & G1 & G2 & G3 & G4).
  exists m'. pose proof (va_cn _ V') as CN'. fold n in R, D1, LH, VN, XN, SN, XA. fold t in D2, LH, VT, XT, ST, XB. fold f in D3, LF, ST, SF.
  assert (Ya : nx m' a = x). { apply XO; [auto|exact Nx|exact Nxy]. }
  assert (Yx : nx m' x = t) by (apply XB; auto).
  assert (Yy : nx m' y = z). { apply XO; [auto|exact Nza|]. fold z. intros E. apply Nxy. apply (cn_inj _ CN); auto; exact (eq_sym E). }
  assert (Yz : nx m' z = n) by (apply XA; auto).
  assert (Ln : liveH m' n) by (apply LH; auto). assert (Lt : liveH m' t) by (apply LH; auto).
  assert (SS : forall h, liveH m' h -> side m' (nx m' h) = side m' h) by (intros h Hh; apply side_fa; apply (cn_fnx _ CN'); auto).
  assert (S1 : side m' y = side m a) by (rewrite <- XN, SS by auto; auto).
  assert (S2 : side m' z = side m a) by (rewrite <- Yy, SS by (apply LH; auto); auto).
  assert (S3 : side m' a = FaceSide f) by (rewrite <- XT, SS by auto; auto).
  assert (S4 : side m' x = FaceSide f) by (rewrite <- Ya, SS by (apply LH; auto); auto).
  split; [exact R|]. split; [exact V'|]. split; [exact ND'|]. split; [auto 7|]. split; [exact G1|]. split; [exact G3|]. split; [exact LH|]. split; [exact LV|]. split; [exact LF|]. split; [exact LB|].
  split; [auto|]. split; [auto 7|]. split; [auto 7|]. split; [|exact HV].
  intros h Hh Kh. assert (LA : forall i, liveH m (Nat.iter i (nx m) a) /\ fa m (Nat.iter i (nx m) a) = fa m a).
  { induction i as [|i [I1 I2]]; [cbn; auto|]. cbn [Nat.iter]. split; [apply CN; auto|]. change (Nat.iter (S i) (nx m) a) with (nx m (Nat.iter i (nx m) a)). rewrite (cn_fnx _ CN); auto. }
  split.
  - apply XO; auto; intros E; apply Kh; rewrite <- (cn_fnx _ CN) by auto; congruence.
  - apply SO; auto. intros (i & <- & _). apply Kh. apply LA.
Qed.

Lemma tri_members m a h : Connected m -> liveH m a -> nx m (nx m (nx m a)) = a -> liveH m h -> fa m h = fa m a -> h = a \/ h = nx m a \/ h = nx m (nx m a).
Proof.
  intros CN La T Lh F. destruct (cn_forb _ CN a h La Lh (eq_sym F)) as (i & <-). clear F Lh.
  induction i as [|j IH]; [left; auto|]. cbn [Nat.iter]. change (Nat.iter (S j) (nx m) a) with (nx m (Nat.iter j (nx m) a)). destruct IH as [->|[->| ->]]; auto.
Qed.
Lemma cyc3 m x y z : Connected m -> liveH m x -> nx m x = y -> nx m y = z -> nx m z = x -> x <> y -> ~ ext m x -> inTriangle m x /\ inTriangle m y /\ inTriangle m z.
Proof.
  intros CN Lx A B C N E. assert (Ly : liveH m y) by (rewrite <- A; apply CN; auto).
  assert (Ey : ~ ext m y) by (unfold ext in *; rewrite <- A, (cn_fnx _ CN); auto). assert (Ez : ~ ext m z) by (unfold ext in *; rewrite <- B, (cn_fnx _ CN); auto).
  unfold inTriangle. rewrite A, B, C, A, B. split; [auto|]. split; [split; [auto|split; auto; congruence]|]. split; [auto|]. split; auto. congruence.
Qed.

Lemma split_spec m e : Valid m -> NoDeadLoops m -> triangular m -> liveH m (eHe e) ->
  let a := eHe e in let b := tw a in nx m a <> b -> nx m b <> a ->
  let v := vFill m in let a' := heFill m in let b' := heFill m + 1 in
  let n1 := heFill m + 2 in let t1 := heFill m + 3 in let n2 := heFill m + 4 in let t2 := heFill m + 5 in
  let a1 := nx m a in let a2 := nx m a1 in let b1 := nx m b in let b2 := nx m b1 in
  exists m', splitEdgeTriangular m e = Ok (m', a) /\ Valid m' /\ NoDeadLoops m' /\ triangular m' /\
    nVertices m' = nVertices m + 1 /\ nLoops m' = nLoops m /\
    (forall w, liveV m' w <-> liveV m w \/ w = v) /\ ~ liveV m v /\
    (forall h, liveH m h -> h <> a -> ve m' h = ve m h) /\ ve m' a = v /\ ve m' a' = ve m a /\ ve m' b' = v /\ ve m' n1 = v /\ ve m' t1 = ve m a2 /\ tw a' = b' /\ tw n1 = t1 /\ tw n2 = t2 /\
    (forall h, liveH m h -> fa m h <> fa m a -> fa m h <> fa m b -> nx m' h = nx m h /\ side m' h = side m h) /\
    (nx m' a = a1 /\ nx m' a1 = t1 /\ nx m' t1 = a /\ nx m' n1 = a2 /\ nx m' a2 = a' /\ nx m' a' = n1) /\
    (ext m b -> nEdges m' = nEdges m + 2 /\ nHalfedges m' = nHalfedges m + 4 /\ nInterior m' = nInterior m + 3 /\ nFaces m' = nFaces m + 1 /\
      (forall h, liveH m' h <-> liveH m h \/ a' <= h <= t1) /\ (forall g, liveF m' g <-> liveF m g \/ g = fFill m) /\
      nx m' b = b' /\ nx m' b' = b1 /\ (forall h, liveH m h -> fa m h = fa m b -> h <> b -> nx m' h = nx m h) /\ (forall h, liveH m h -> fa m h = fa m b -> side m' h = side m h) /\ side m' b' = side m b) /\
    (~ ext m b -> nEdges m' = nEdges m + 3 /\ nHalfedges m' = nHalfedges m + 6 /\ nInterior m' = nInterior m + 6 /\ nFaces m' = nFaces m + 2 /\
      (forall h, liveH m' h <-> liveH m h \/ a' <= h <= t2) /\ (forall g, liveF m' g <-> liveF m g \/ g = fFill m \/ g = fFill m + 1) /\
      nx m' b = n2 /\ nx m' n2 = b2 /\ nx m' b2 = b /\ nx m' b' = b1 /\ nx m' b1 = t2 /\ nx m' t2 = b' /\ ve m' n2 = v /\ ve m' t2 = ve m b2) /\
    side m' n1 = side m a /\ side m' t1 = FaceSide (fFill m) /\ (~ ext m b -> side m' n2 = side m b /\ side m' t2 = FaceSide (fFill m + 1)).
Proof.
  intros V ND T La a b nab nba v a' b' n1 t1 n2 t2 a1 a2 b1 b2. fold a in La. pose proof (va_cn _ V) as CN.
  assert (Ia : ~ ext m a) by (apply (cn_ebd _ CN); auto; unfold a, eHe; lia).
  destruct (T a La Ia) as (_ & Ta & Na1). fold a1 in Ta, Na1, nab. fold a2 in Ta. fold b1 in nba.
  assert (Lb : liveH m b) by (apply CN; auto). assert (La1 : liveH m a1) by (apply CN; auto). assert (La2 : liveH m a2) by (apply CN; auto). assert (Lb1 : liveH m b1) by (apply CN; auto).
  assert (Lb2 : liveH m b2) by (apply CN; auto).
  assert (Na2 : a2 <> a) by (intros E; rewrite E in Ta; auto).
  assert (N12 : a1 <> a2) by (intros E; apply Na1; symmetry; apply (cn_inj _ CN); auto).
  assert (Fa1 : fa m a1 = fa m a) by (apply (cn_fnx _ CN); auto). assert (Fa2 : fa m a2 = fa m a) by (rewrite <- Fa1; apply (cn_fnx _ CN); auto).
  assert (Nab : a <> b) by (unfold b; clear; unfold tw; lia).
  assert (Fab : fa m a <> fa m b).
  { intros E. destruct (cn_forb _ CN a b La Lb E) as (i & Hi). assert (K : forall i, Nat.iter i (nx m) a = a \/ Nat.iter i (nx m) a = a1 \/ Nat.iter i (nx m) a = a2).
    { intros j. induction j as [|j IH]; [left; auto|]. cbn [Nat.iter]. change (Nat.iter (S j) (nx m) a) with (nx m (Nat.iter j (nx m) a)). destruct IH as [->|[->| ->]]; auto. }
    destruct (K i) as [Q|[Q|Q]]; rewrite Hi in Q; [auto|auto|]. apply nba. unfold b1. rewrite Q. auto. }
  unfold splitEdgeTriangular. fold a. rewrite faceOf_ok by (apply (liveH_bnd m V); auto). cbn [bind].
  rewrite isTriangle_ok by auto. fold a1. fold a2. rewrite Ta, Z.eqb_refl. cbn [bind guard].
  rewrite eIsBoundary_ok by auto. cbn [bind]. fold a. fold b.
  assert (GT : (if fFill m <=? fa m b then Ok tt else let* g := faceOf m b in let* t := isTriangle m g in guard t) = Ok tt).
  { destruct (Z.leb_spec (fFill m) (fa m b)) as [K|K]; auto. rewrite faceOf_ok by (apply (liveH_bnd m V); auto). cbn [bind]. rewrite isTriangle_ok by auto.
    destruct (T b Lb) as (_ & Q & _); [unfold ext; clear - K; lia|]. rewrite Q, Z.eqb_refl. reflexivity. }
  rewrite GT. cbn [bind]. clear GT.
  destruct (insert_spec m e V La nba) as (m1 & R1 & V1 & C1 & C2 & C3 & C4 & C5 & D1 & D2 & D3 & D4 & LH1 & LV1 & LF1 & Va & Va' & Vb' & VO1 & Xa' & Xb & Xb' & XA1 & XO1 & Fa' & Fb' & FO1 & CI1 & CI2 & ND1 & HF1 & _ & G1 & G2 & G3 & _ & _).
  specialize (ND1 ND). fold a in R1, VO1, Va, Va', XA1, XO1, Xa', Fa', Xb, Xb', Fb', CI1, CI2. fold b in Xb, Xb', XO1, Fb', CI1, CI2, Xa'. fold a' in D2, D4, LH1, Va', Xa', XA1, Fa'. fold b' in D3, D4, LH1, Vb', Xb, Xb', Fb'. fold v in Va, Vb', LV1, D1. fold b1 in Xb'.
  rewrite R1. cbn [bind]. pose proof (va_cn _ V1) as CN1.
  assert (A1 : nx m1 a = a1) by (apply XO1; auto). assert (A2 : nx m1 a1 = a2) by (apply XO1; auto; intros E; apply Fab; rewrite <- Fa1, E; auto).
  assert (A3 : nx m1 a2 = a') by (apply XA1; auto).
  assert (L1a : liveH m1 a) by (apply LH1; auto). assert (L1a1 : liveH m1 a1) by (apply LH1; auto).
  rewrite next_ok by (apply (liveH_bnd m1 V1); auto). cbn [bind]. rewrite A1. rewrite next_ok by (apply (liveH_bnd m1 V1); auto). cbn [bind].
  assert (I1a : ~ ext m1 a) by (unfold ext; rewrite G1, FO1 by auto; exact Ia).
  destruct (connect_quad m1 a V1 ND1 L1a I1a) as (m2 & R2 & V2 & ND2 & Cn2 & Hf2 & Ff2 & LH2 & LV2 & LF2 & LB2 & VE2 & NX2 & SD2 & OT2 & VH2); rewrite ?A1, ?A2, ?A3 in *; auto.
  fold n1 in HF1. rewrite HF1 in R2, LH2, VE2, NX2, SD2, Hf2. replace (n1 + 1) with t1 in LH2, VE2, NX2, SD2 by (unfold n1, t1; clear; lia). rewrite G1 in LF2, SD2, Ff2.
  destruct VE2 as (Vn1 & Vt1 & VO2). destruct NX2 as (Xn1 & Xa2 & Xa'2 & Xa & Xa1 & Xt1). destruct SD2 as (Sn1 & Sa2 & Sa' & Sa & Sa1 & St1). destruct Cn2 as (K1 & K2 & K3 & K4 & K5 & K6).
  rewrite R2. cbn [bind]. pose proof (va_cn _ V2) as CN2.
  assert (F1ab : forall h, liveH m h -> fa m h <> fa m a -> fa m1 h <> fa m1 a) by (intros h Lh K; rewrite !FO1 by auto; auto).
  assert (SO1 : forall h, liveH m h -> side m1 h = side m h) by (intros h Lh; unfold side; rewrite G1, G3, FO1; auto).
  assert (Sb' : side m1 b' = side m b) by (unfold side; rewrite G1, G3, Fb'; auto).
  assert (Fb'a : fa m1 b' <> fa m1 a) by (rewrite Fb', FO1 by auto; auto).
  assert (L1 : forall h, liveH m h -> liveH m1 h) by (intros; apply LH1; auto). assert (L2 : forall h, liveH m h -> liveH m2 h) by (intros; apply LH2; auto).
  assert (L1b' : liveH m1 b') by (apply LH1; auto). assert (L2b' : liveH m2 b') by (apply LH2; auto).
  destruct (OT2 b (L1 b Lb) (F1ab b Lb (fun E => Fab (eq_sym E)))) as [Xb2 Sb2]. rewrite Xb in Xb2. rewrite SO1 in Sb2 by auto.
  destruct (OT2 b' L1b' Fb'a) as [Xb'2 Sb'2]. rewrite Xb' in Xb'2. rewrite Sb' in Sb'2.
  assert (OTm : forall h, liveH m h -> fa m h <> fa m a -> h <> b -> nx m2 h = nx m h /\ side m2 h = side m h).
  { intros h Lh Ka Kb. destruct (OT2 h (L1 h Lh) (F1ab h Lh Ka)) as [-> ->]. rewrite SO1 by auto. split; auto. apply XO1; auto. intros E. apply Ka. rewrite <- E. symmetry. apply (cn_fnx _ CN); auto. }
  assert (Va2 : ve m2 a = v) by (rewrite VO2; auto). assert (Va'2 : ve m2 a' = ve m a) by (rewrite VO2; auto; apply LH1; auto). assert (Vb'2 : ve m2 b' = v) by (rewrite VO2; auto).
  assert (Vn1' : ve m2 n1 = v) by (rewrite Vn1; auto). assert (Vt1' : ve m2 t1 = ve m a2) by (rewrite Vt1, VO1; auto).
  assert (VO : forall h, liveH m h -> h <> a -> ve m2 h = ve m h) by (intros h Lh K; rewrite VO2, VO1; auto).
  assert (EvF : heFill m mod 2 = 0) by (destruct (st_edge _ (va_st _ V)) as [K _]; clear - K; lia).
  assert (TW1 : tw n1 = t1) by (unfold tw, n1, t1; clear - EvF; lia). assert (TW2 : tw n2 = t2) by (unfold tw, n2, t2; clear - EvF; lia).
  assert (LVf : forall w, liveV m2 w <-> liveV m w \/ w = v) by (intros w; rewrite LV2, LV1; tauto).
  assert (NF : forall f, liveF m f -> f <> fFill m) by (intros f [K _]; clear - K; lia).
  assert (LH2' : forall h, liveH m2 h <-> liveH m h \/ a' <= h <= t1).
  { intros h. rewrite LH2, LH1. unfold a', b', n1, t1. clear. split; [intros [[K|[K|K]]|[K|K]]; auto; right; lia|intros [K|K]; auto]. assert (h = heFill m \/ h = heFill m + 1 \/ h = heFill m + 2 \/ h = heFill m + 3) as [?|[?|[?|?]]] by lia; auto. }
  assert (TA : (forall h, h = a \/ h = a1 \/ h = t1 \/ h = n1 \/ h = a2 \/ h = a' -> inTriangle m2 h)).
  { assert (Ea : ~ ext m2 a) by (rewrite ext_side, Sa; intros [? K]; discriminate K).
    assert (En : ~ ext m2 n1) by (rewrite (side_ext m2 n1 m1 a); auto).
    destruct (cyc3 m2 a a1 t1 CN2) as (T1 & T2 & T3); auto. destruct (cyc3 m2 n1 a2 a' CN2) as (T4 & T5 & T6); auto; [apply LH2; auto|intros E; destruct La2 as [La2 _]; clear - E La2; unfold n1 in E; lia|].
    intros h [->|[->|[->|[->|[->| ->]]]]]; auto. }
  assert (IN : isInterior m2 (tw a) = Ok (negb (fFill m <=? fa m b))).
  { unfold isInterior. fold b. rewrite faceOf_ok by (apply (liveH_bnd m2 V2); auto). cbn [bind]. unfold isLoop. f_equal. f_equal.
    assert (E : ext m2 b <-> ext m b) by (apply side_ext; auto). unfold ext in E. assert (0 <= fa m2 b) by (apply (liveFL_nonneg m2 V2); apply CN2; auto). clear - E H. lia. }
  rewrite IN. cbn [bind]. destruct (Z.leb_spec (fFill m) (fa m b)) as [Bd|Bd]; cbn [negb].
  - exists m2. split; [reflexivity|]. split; [exact V2|]. split; [exact ND2|]. specialize (CI1 Bd). clear CI2. split.
    { intros h Lh Eh. apply LH2 in Lh as [Lh|[->| ->]]; [|apply TA; auto 6|apply TA; auto 6]. apply LH1 in Lh as [Lh|[->| ->]]; [|apply TA; auto 7|].
      - destruct (Z.eq_dec (fa m h) (fa m a)) as [Ka|Ka]; [apply TA; destruct (tri_members m a h CN La Ta Lh Ka) as [->|[->| ->]]; auto 6|].
        destruct (Z.eq_dec (fa m h) (fa m b)) as [Kb|Kb].
        + exfalso. apply Eh. rewrite (side_ext m2 h m b); auto. rewrite <- (side_fa m h b Kb). destruct (Z.eq_dec h b) as [->|Kn]; auto. apply OTm; auto.
        + assert (Q : forall g, liveH m g -> fa m g = fa m h -> nx m2 g = nx m g /\ side m2 g = side m g) by (intros g Lg Eg; apply OTm; auto; [congruence|intros ->; auto]).
          destruct (Q h Lh eq_refl) as [Q1 Q2]. destruct (T h Lh) as (U1 & U2 & U3); [rewrite <- (side_ext m2 h m h); auto|].
          destruct (Q (nx m h)) as [Q3 _]; [apply CN; auto|apply (cn_fnx _ CN); auto|]. destruct (Q (nx m (nx m h))) as [Q5 _]; [apply CN; apply CN; auto|rewrite !(cn_fnx _ CN); auto; apply CN; auto|].
          split; auto. rewrite Q1, Q3, Q5. auto.
      - exfalso. apply Eh. apply (side_ext m2 b' m b); auto. }
    split; [congruence|]. split; [congruence|]. split; [exact LVf|]. split; [exact D1|]. split; [exact VO|]. split; [exact Va2|]. split; [exact Va'2|]. split; [exact Vb'2|]. split; [exact Vn1'|]. split; [exact Vt1'|].
    split; [exact D4|]. split; [exact TW1|]. split; [exact TW2|]. split; [intros h Lh Q1 Q2; apply OTm; auto; intros ->; auto|]. split; [auto 7|]. split; [|split; [intros K; exfalso; apply K; exact Bd|split; [rewrite Sn1; apply SO1; auto|split; [exact St1|intros K; exfalso; apply K; exact Bd]]]].
    intros _. split; [rewrite K2, C2; clear; lia|]. split; [rewrite K3, C3; clear; lia|]. split; [rewrite K4, CI1; clear; lia|]. split; [rewrite K5, C4; clear; lia|]. split; [exact LH2'|]. split.
    { intros f. rewrite LF2. assert (Q : liveF m1 f <-> liveF m f); [|rewrite Q; tauto]. pose proof (LF1 f) as Q. unfold liveFL, liveL in Q. unfold liveF in *. rewrite G1, G2, G3 in *. clear - Q V. destruct (va_st _ V) as [_ _ _ _ _ _ _ _ T9]. split; intros [Q1 Q2]; (split; [auto|]); destruct Q as [P1 P2]; [destruct P1|destruct P2]; tauto || lia. }
    split; [exact Xb2|]. split; [exact Xb'2|]. split; [intros h Lh Q1 Q2; apply OTm; auto; congruence|]. split; [intros h Lh Q1; destruct (Z.eq_dec h b) as [->|Kn]; [exact Sb2|apply OTm; auto; congruence]|exact Sb'2].
  - assert (Ib : ~ ext m b) by (unfold ext; clear - Bd; lia). specialize (CI2 Ib). clear CI1.
    destruct (T b Lb Ib) as (_ & Tb & Nb1). fold b1 in Tb, Nb1. fold b2 in Tb.
    assert (Nb2 : b2 <> b) by (intros E; rewrite E in Tb; auto). assert (Nb12 : b1 <> b2) by (intros E; apply Nb1; symmetry; apply (cn_inj _ CN); auto).
    assert (Fb1 : fa m b1 = fa m b) by (apply (cn_fnx _ CN); auto). assert (Fb2 : fa m b2 = fa m b) by (rewrite <- Fb1; apply (cn_fnx _ CN); auto).
    destruct (OTm b1 Lb1) as [Xb1 Sb1]; [congruence|auto|]. fold b2 in Xb1. destruct (OTm b2 Lb2) as [Xb2' Sb2']; [congruence|auto|]. rewrite Tb in Xb2'.
    assert (RGm : forall h, liveH m h -> h < a') by (intros h [K _]; unfold a'; clear - K; lia).
    rewrite next_ok by (apply (liveH_bnd m2 V2); auto). cbn [bind]. fold b. rewrite Xb2. rewrite next_ok by (apply (liveH_bnd m2 V2); auto). cbn [bind]. rewrite Xb'2.
    rewrite next_ok by (apply (liveH_bnd m2 V2); auto). cbn [bind]. rewrite Xb1.
    assert (I2 : ~ ext m2 b') by (intros K; apply Ib; apply (side_ext m2 b' m b); auto).
    destruct (connect_quad m2 b' V2 ND2 L2b' I2) as (m3 & R3 & V3 & ND3 & Cn3 & Hf3 & Ff3 & LH3 & LV3 & LF3 & LB3 & VE3 & NX3 & SD3 & OT3 & VH3); rewrite ?Xb'2, ?Xb1, ?Xb2', ?Xb2 in *; auto.
    { pose proof (RGm _ Lb1) as Q. intros E. clear - Q E. unfold a', b' in *. lia. } { pose proof (RGm _ Lb2) as Q. intros E. clear - Q E. unfold a', b' in *. lia. }
    rewrite Hf2 in R3, LH3, VE3, NX3, SD3, Hf3. replace (n1 + 2) with n2 in * by (unfold n1, n2; clear; lia). replace (n2 + 1) with t2 in LH3, VE3, NX3, SD3 by (unfold n2, t2; clear; lia). rewrite Ff2 in LF3, SD3, Ff3.
    destruct VE3 as (Vn2 & Vt2 & VO3). destruct NX3 as (Xn2 & Xb2'' & Xb3 & Xb'3 & Xb13 & Xt2). destruct SD3 as (Sn2 & Sb23 & Sb3 & Sb'3 & Sb13 & St2). destruct Cn3 as (J1 & J2 & J3 & J4 & J5 & J6).
    rewrite R3. cbn [bind]. exists m3. pose proof (va_cn _ V3) as CN3.
    assert (SDab : side m a <> side m b) by (intros E; apply Fab, fa_side; auto).
    assert (NOa : forall h, liveH m2 h -> side m2 h = side m a \/ side m2 h = FaceSide (fFill m) -> fa m2 h <> fa m2 b').
    { intros h Lh Q E. apply side_fa in E. rewrite Sb'2 in E. destruct Q as [Q|Q]; [congruence|]. rewrite Q in E. rewrite (face_side m b Ib) in E. injection E as E. unfold ext in Ib. clear - E Ib. lia. }
    rewrite SO1 in Sn1, Sa2, Sa' by auto.
    assert (XA3 : forall h, h = a \/ h = a1 \/ h = t1 \/ h = n1 \/ h = a2 \/ h = a' -> nx m3 h = nx m2 h /\ side m3 h = side m2 h).
    { assert (L2a' : liveH m2 a') by (apply LH2; left; apply LH1; auto). intros h [->|[->|[->|[->|[->| ->]]]]]; apply OT3; auto; try (apply NOa; auto); apply LH2; auto. }
    assert (X3a := proj1 (XA3 a (or_introl eq_refl))). assert (X3a1 := proj1 (XA3 a1 (or_intror (or_introl eq_refl)))). assert (X3t1 := proj1 (XA3 t1 ltac:(auto 6))). assert (X3n1 := proj1 (XA3 n1 ltac:(auto 6))).
    assert (X3a2 := proj1 (XA3 a2 ltac:(auto 7))). assert (X3a' := proj1 (XA3 a' ltac:(auto 8))). rewrite Xa in X3a. rewrite Xa1 in X3a1. rewrite Xt1 in X3t1. rewrite Xn1 in X3n1. rewrite Xa2 in X3a2. rewrite Xa'2 in X3a'.
    assert (OT3m : forall h, liveH m h -> fa m h <> fa m a -> fa m h <> fa m b -> nx m3 h = nx m h /\ side m3 h = side m h).
    { intros h Lh Ka Kb. destruct (OTm h Lh Ka) as [Q1 Q2]; [intros ->; auto|]. destruct (OT3 h (L2 h Lh)) as [Q3 Q4]; [intros E; apply side_fa in E; rewrite Q2, Sb'2 in E; apply fa_side in E; auto|]. rewrite Q3, Q4. auto. }
    split; [reflexivity|]. split; [exact V3|]. split; [exact ND3|]. split.
    { assert (TB : forall h, h = b \/ h = n2 \/ h = b2 \/ h = b' \/ h = b1 \/ h = t2 -> inTriangle m3 h).
      { assert (E1 : ~ ext m3 b') by (rewrite ext_side, Sb'3; intros [? K]; discriminate K). assert (E2 : ~ ext m3 n2) by (intros K; apply I2; apply (side_ext m3 n2 m2 b'); auto).
        destruct (cyc3 m3 b' b1 t2 CN3) as (T1 & T2 & T3); auto; [apply LH3; auto|intros E; pose proof (RGm _ Lb1) as Q; clear - Q E; unfold a', b' in *; lia|].
        destruct (cyc3 m3 n2 b2 b CN3) as (T4 & T5 & T6); auto; [apply LH3; auto|intros E; pose proof (RGm _ Lb2) as Q; clear - Q E; unfold a', n2 in *; lia|].
        intros h [->|[->|[->|[->|[->| ->]]]]]; auto. }
      assert (TA3 : forall h, h = a \/ h = a1 \/ h = t1 \/ h = n1 \/ h = a2 \/ h = a' -> inTriangle m3 h).
      { assert (Ea : ~ ext m3 a) by (rewrite ext_side, (proj2 (XA3 a (or_introl eq_refl))), Sa; intros [? K]; discriminate K).
        assert (En : ~ ext m3 n1). { intros K. apply Ia. apply (side_ext m3 n1 m a); auto. rewrite (proj2 (XA3 n1 ltac:(auto 6))). auto. }
        destruct (cyc3 m3 a a1 t1 CN3) as (T1 & T2 & T3); auto; [apply LH3; auto|]. destruct (cyc3 m3 n1 a2 a' CN3) as (T4 & T5 & T6); auto; [apply LH3; left; apply LH2; auto|intros E; pose proof (RGm _ La2) as Q; clear - Q E; unfold a', n1 in *; lia|].
        intros h [->|[->|[->|[->|[->| ->]]]]]; auto. }
      intros h Lh Eh. apply LH3 in Lh as [Lh|[->| ->]]; [|apply TB; auto 6|apply TB; auto 8]. apply LH2 in Lh as [Lh|[->| ->]]; [|apply TA3; auto 6|apply TA3; auto 6]. apply LH1 in Lh as [Lh|[->| ->]]; [|apply TA3; auto 8|apply TB; auto 6].
      destruct (Z.eq_dec (fa m h) (fa m a)) as [Ka|Ka]; [apply TA3; destruct (tri_members m a h CN La Ta Lh Ka) as [->|[->| ->]]; auto 6|].
      destruct (Z.eq_dec (fa m h) (fa m b)) as [Kb|Kb]; [apply TB; destruct (tri_members m b h CN Lb Tb Lh Kb) as [->|[->| ->]]; auto 6|].
      destruct (OT3m h Lh Ka Kb) as [Q1 Q2]. destruct (T h Lh) as (U1 & U2 & U3); [rewrite <- (side_ext m3 h m h); auto|].
      assert (P1 : fa m (nx m h) = fa m h) by (apply (cn_fnx _ CN); auto). assert (P2 : fa m (nx m (nx m h)) = fa m h) by (rewrite (cn_fnx _ CN); auto; apply CN; auto).
      destruct (OT3m (nx m h)) as [Q3 _]; [apply CN; auto|congruence|congruence|]. destruct (OT3m (nx m (nx m h))) as [Q5 _]; [apply CN; apply CN; auto|congruence|congruence|].
      split; auto. rewrite Q1, Q3, Q5. auto. }
    split; [congruence|]. split; [congruence|]. split; [intros w; rewrite LV3; apply LVf|]. split; [exact D1|]. split; [intros h Lh Kh; rewrite VO3 by auto; auto|]. split; [rewrite VO3 by auto; auto|].
    split; [rewrite VO3 by (apply LH2; left; apply LH1; auto); auto|]. split; [rewrite VO3 by auto; auto|]. split; [rewrite VO3 by (apply LH2; auto); auto|]. split; [rewrite VO3 by (apply LH2; auto); auto|].
    split; [exact D4|]. split; [exact TW1|]. split; [exact TW2|]. split; [exact OT3m|]. split; [auto 7|]. split; [intros K; contradiction|]. split; [|split; [rewrite (proj2 (XA3 n1 ltac:(auto 6))); exact Sn1|split; [rewrite (proj2 (XA3 t1 ltac:(auto 6))); exact St1|intros _; split; [rewrite Sn2; exact Sb'2|exact St2]]]].
    intros _. split; [rewrite J2, K2, C2; clear; lia|]. split; [rewrite J3, K3, C3; clear; lia|]. split; [rewrite J4, K4, CI2; clear; lia|]. split; [rewrite J5, K5, C4; clear; lia|]. split.
    { intros h. rewrite LH3, LH2'. unfold a', t1, n2, t2. clear. split; [intros [[K|K]|[K|K]]; auto; right; lia|intros [K|K]; auto]. assert (heFill m <= h <= heFill m + 3 \/ h = heFill m + 4 \/ h = heFill m + 5) as [?|[?|?]] by lia; auto. }
    split. { intros f. rewrite LF3, LF2. assert (Q : liveF m1 f <-> liveF m f); [|rewrite Q; tauto]. pose proof (LF1 f) as Q. unfold liveFL, liveL in Q. unfold liveF in *. rewrite G1, G2, G3 in *. clear - Q V. destruct (va_st _ V) as [_ _ _ _ _ _ _ _ T9]. split; intros [Q1 Q2]; (split; [auto|]); destruct Q as [P1 P2]; [destruct P1|destruct P2]; tauto || lia. }
    split; [exact Xb3|]. split; [exact Xn2|]. split; [exact Xb2''|]. split; [exact Xb'3|]. split; [exact Xb13|]. split; [exact Xt2|]. split; [rewrite Vn2; auto|rewrite Vt2; auto].
    apply VO; auto. intros E. apply Fab. rewrite <- E. auto.
Qed.

Lemma side_face m h f : side m h = FaceSide f -> fa m h = f.
Proof. unfold side. destruct (fFill m <=? fa m h); intros E; [discriminate|injection E; auto]. Qed.
Lemma nodup_app_disj {A} (l r : list A) x : NoDup (l ++ r) -> In x l -> In x r -> False.
Proof. induction l as [|y l IH]; [contradiction|]. cbn. intros N [->|H] K; apply NoDup_cons_iff in N as [N1 N2]; [apply N1, in_or_app; auto|auto]. Qed.

Record FanOut (m m' : mesh) (con c1 : Z) (hs : list Z) (lst : Z) : Prop := {
  fo_valid : Valid m'; fo_nd : NoDeadLoops m';
  fo_cnt : counts m' = (let k := Z.of_nat (length hs) in (nHalfedges m + 2 * k, nInterior m + 2 * k, nEdges m + k, nVertices m, nFaces m + k, nLoops m));
  fo_fill : heFill m' = heFill m + 2 * Z.of_nat (length hs) /\ fFill m' = fFill m + Z.of_nat (length hs) /\ vFill m' = vFill m /\ bFill m' = bFill m;
  fo_h : forall h, liveH m' h <-> liveH m h \/ heFill m <= h < heFill m + 2 * Z.of_nat (length hs);
  fo_v : forall v, liveV m' v <-> liveV m v;
  fo_f : forall f, liveF m' f <-> liveF m f \/ fFill m <= f < fFill m + Z.of_nat (length hs);
  fo_b : forall i, liveBL m' i <-> liveBL m i;
  fo_ve : forall h, liveH m h -> ve m' h = ve m h;
  fo_other : forall h, liveH m h -> fa m h <> fa m con -> nx m' h = nx m h /\ side m' h = side m h;
  fo_vh : forall v, liveV m v -> vh m' v = vh m v;
  fo_tri : forall i, (i <= length hs)%nat -> exists h, liveH m' h /\ inTriangle m' h /\ ve m' h = ve m con /\ nx m' h = nth i (c1 :: hs) INVALID /\
    ve m' (nx m' (nx m' h)) = ve m (nth (S i) (c1 :: hs ++ [lst]) INVALID) /\ side m' h = if (i =? length hs)%nat then side m con else FaceSide (fFill m + Z.of_nat i) }.

Lemma fan_loop_ok : forall hs m con c1 lst fs, Valid m -> NoDeadLoops m -> liveH m con -> ~ ext m con ->
  chain (nx m) con (con :: c1 :: hs ++ [lst]) con -> NoDup (con :: c1 :: hs ++ [lst]) ->
  exists m', fan_loop m con hs fs = Ok (m', fs ++ map (fun i => fFill m + Z.of_nat i) (seq 0 (length hs))) /\ FanOut m m' con c1 hs lst.
Proof.
  induction hs as [|h hs IH]; intros m con c1 lst fs V ND L NE C N; pose proof (va_cn _ V) as CN.
  - cbn in C. destruct C as (_ & E1 & E2 & E3). rewrite <- E1, <- E2 in *. exists m. cbn. rewrite app_nil_r. split; [reflexivity|].
    assert (T : inTriangle m con). { split; auto. rewrite <- E1, <- E2. split; auto. intros E. apply NoDup_cons_iff in N as [N _]. apply N. left. auto. }
    split; auto; intros; cbn; try tauto.
    + unfold counts. repeat f_equal; lia.
    + rewrite !Z.add_0_r. auto.
    + split; auto. intros [?|?]; auto. lia.
    + split; auto. intros [?|?]; auto. lia.
    + assert (i = 0)%nat as -> by (cbn in H; lia). exists con. rewrite <- E1, <- E2. cbn. auto 10.
  - assert (C0 := C). destruct C as (_ & E1 & C). cbn [app] in C. destruct C as [E2 C].
    assert (LL : forall x, In x (con :: c1 :: (h :: hs) ++ [lst]) -> liveH m x /\ fa m x = fa m con).
    { intros x Hx. apply (chain_In_reach _ _ _ _ _ C0) in Hx as (i & <-). induction i as [|i [I1 I2]]; [auto|]. change (Nat.iter (S i) (nx m) con) with (nx m (Nat.iter i (nx m) con)). split; [apply CN; auto|]. rewrite (cn_fnx _ CN); auto. }
    destruct (LL c1) as [Lc1 Fc1]; [cbn; auto|]. destruct (LL h) as [Lh Fh]; [cbn; auto|]. destruct (LL lst) as [Ll Fl]; [right; right; apply in_or_app; right; left; auto|].
    assert (Nl : nx m lst = con). { destruct (chain_last (nx m) con (con :: c1 :: (h :: hs) ++ [lst]) con) as [Q _]; [discriminate|exact C0|]. rewrite <- Q. f_equal. change (con :: c1 :: (h :: hs) ++ [lst]) with ((con :: c1 :: h :: hs) ++ [lst]). rewrite last_last. auto. }
    assert (NN := N). apply NoDup_cons_iff in N as [N1 N]. apply NoDup_cons_iff in N as [N2 N3].
    assert (Nc1h : c1 <> h) by (intros ->; apply N2; left; auto). assert (Nch : con <> h) by (intros ->; apply N1; right; left; auto).
    assert (Nhl : h <> lst). { cbn [app] in N3. intros ->. apply NoDup_cons_iff in N3 as [N3 _]. apply N3, in_or_app. right; left; auto. }
    assert (Nc1c : c1 <> con) by (intros ->; apply N1; left; auto).
    assert (Nnh : nx m h <> con) by (intros E; apply Nhl; apply (cn_inj _ CN); auto; congruence).
    cbn [fan_loop].
    destruct (connect_spec m con h V ND L Lh (eq_sym Fh) NE Nch) as
      (m1 & R & V1 & ND1 & C1 & C2 & C3 & C4 & C5 & C6 & D1 & D2 & D3 & D4 & LH & LV & LF & LB & VN & VT & VO & XN & XT & XA & XB & XO & SN & ST & SF & SO & HV & G1 & G2 & G3 & G4); [congruence|auto|].
    set (n := heFill m) in *. set (t := n + 1) in *. set (f := fFill m) in *. pose proof (va_cn _ V1) as CN1.
    rewrite R. cbn [bind]. assert (Lt : liveH m1 t) by (apply LH; auto). assert (Ln : liveH m1 n) by (apply LH; auto). assert (L1 : forall x, liveH m x -> liveH m1 x) by (intros; apply LH; auto).
    rewrite D4. rewrite faceOf_ok by (apply (liveH_bnd m1 V1); auto). cbn [bind]. rewrite (side_face m1 t f ST).
    assert (Xc : nx m1 con = c1) by (rewrite XO; auto; congruence). assert (Xc1 : nx m1 c1 = t) by (apply XB; auto; congruence).
    assert (SS : forall x, liveH m1 x -> side m1 (nx m1 x) = side m1 x) by (intros x Hx; apply side_fa; apply (cn_fnx _ CN1); auto).
    assert (S3 : side m1 con = FaceSide f) by (rewrite <- XT, SS by auto; auto). assert (S4 : side m1 c1 = FaceSide f) by (rewrite <- Xc, SS by auto; auto).
    assert (En : ~ ext m1 n) by (intros K; apply NE; apply (side_ext m1 n m con); auto).
    assert (Sf : side m con <> FaceSide f) by (rewrite face_side by auto; intros K; injection K as K; unfold ext in NE; fold f in NE; clear - K NE; lia).
    assert (Fn : forall x, side m1 x = FaceSide f -> fa m1 x <> fa m1 n) by (intros x Q K; apply side_fa in K; congruence).
    destruct (IH m1 n h lst (fs ++ [f]) V1 ND1 Ln En) as (m' & R' & F).
    { change (n :: h :: hs ++ [lst]) with ([n] ++ (h :: hs) ++ [lst]). apply chain_app. exists h. split; [split; auto|]. apply chain_app. exists lst. assert (C' : chain (nx m) h ((h :: hs) ++ [lst]) con) by (split; [auto|]; rewrite E2; exact C).
      apply chain_app in C' as (l' & C'' & E3). cbn in E3. destruct E3 as [<- E3]. split; [|split; [auto|apply XA; auto]].
      apply chain_ext with (nx m); auto. intros x Hx. destruct (LL x) as [Lx Fx]; [right; right; apply in_or_app; auto|]. symmetry. apply XO; auto.
      - intros E. apply (nodup_app_disj (h :: hs) [lst] x); auto. left. apply (cn_inj _ CN); auto. congruence.
      - intros E. apply N2. assert (x = c1) as <- by (apply (cn_inj _ CN); auto; congruence). apply in_or_app; auto. }
    { constructor; [|exact N3]. intros K. apply D1. apply LL. right; right; auto. }
    assert (GK : Z.of_nat (length (h :: hs)) = Z.of_nat (length hs) + 1) by (cbn [length]; lia).
    exists m'. split. { rewrite R', G3, <- app_assoc. f_equal. f_equal. cbn [length seq map app]. rewrite Z.add_0_r. fold f. f_equal. f_equal. rewrite <- seq_shift, map_map. apply map_ext. intros i. lia. }
    destruct F as [H1 H2 H3 H4 H5 H6 H7 H8 H9 H10 H11 H12].
    assert (OTm : forall x, liveH m x -> fa m x <> fa m con -> nx m1 x = nx m x /\ side m1 x = side m x).
    { intros x Lx Kx. split; [apply XO; auto; intros E; apply Kx; rewrite <- (cn_fnx _ CN) by auto; congruence|]. apply SO; auto. intros (i & <- & _). apply Kx. clear - CN L. induction i as [|i IH]; auto. change (Nat.iter (S i) (nx m) con) with (nx m (Nat.iter i (nx m) con)).
      assert (K : liveH m (Nat.iter i (nx m) con)) by (clear IH; induction i as [|i IH]; auto; change (Nat.iter (S i) (nx m) con) with (nx m (Nat.iter i (nx m) con)); apply CN; auto). rewrite (cn_fnx _ CN); auto. }
    split; auto.
    + unfold counts in *. rewrite H3, C1, C2, C3, C4, C5, C6, GK. cbn zeta. repeat (apply (f_equal2 pair); [|lia]). lia.
    + rewrite GK. rewrite G1, G2, G3, G4 in H4. fold n. fold f. lia.
    + intros x. rewrite H5, LH, G1, GK. fold n. unfold t. clear. split; [intros [[K|[K|K]]|K]; auto; right; lia|intros [K|K]; auto]. assert (x = n \/ x = n + 1 \/ n + 2 <= x) as [?|[?|?]] by lia; auto. right. lia.
    + intros x. rewrite H6. apply LV.
    + intros x. rewrite H7, LF, G3, GK. fold f. clear. split; [intros [[K|K]|K]; auto; right; lia|intros [K|K]; auto]. assert (x = f \/ f + 1 <= x) as [?|?] by lia; auto. right. lia.
    + intros i. rewrite H8. apply LB.
    + intros x Lx. rewrite H9 by auto. auto.
    + intros x Lx Kx. destruct (OTm x Lx Kx) as [Q1 Q2]. destruct (H10 x (L1 x Lx)) as [Q3 Q4]; [intros K; apply side_fa in K; rewrite Q2, SN in K; apply Kx, fa_side; auto|]. rewrite Q3, Q4. auto.
    + intros x Lx. rewrite H11 by (apply LV; auto). auto.
    + intros i Hi. destruct i as [|i].
      * destruct (H10 con (L1 _ L) (Fn _ S3)) as [Q1 Q2]. destruct (H10 c1 (L1 _ Lc1) (Fn _ S4)) as [Q3 Q4]. destruct (H10 t Lt (Fn _ ST)) as [Q5 Q6]. rewrite Xc in Q1. rewrite Xc1 in Q3. rewrite XT in Q5.
        assert (Lc' : liveH m' con) by (apply H5; auto). exists con. split; auto. split; [apply (cyc3 m' con c1 t (va_cn _ H1) Lc' Q1 Q3 Q5); [intros K; apply Nc1c; auto|rewrite ext_side, Q2, S3; intros [? K]; discriminate K]|].
        split; [rewrite H9; auto|]. split; [exact Q1|]. split; [rewrite Q1, Q3, H9 by auto; exact VT|]. cbn. rewrite Q2, S3, Z.add_0_r. auto.
      * destruct (H12 i) as (x & P1 & P2 & P3 & P4 & P5 & P6); [cbn in Hi; lia|]. exists x. split; auto. split; auto. split; [rewrite P3; auto|]. split; [exact P4|]. split.
        { rewrite P5. cbn [nth app]. apply VO. apply LL. right; right; right. apply nth_In. rewrite app_length. cbn in Hi |- *. lia. }
        rewrite P6. cbn [length]. change (S i =? S (length hs))%nat with (i =? length hs)%nat. destruct (i =? length hs)%nat; [exact SN|]. rewrite G3. f_equal. fold f. lia.
Qed.

Lemma cycle_uniq f s l l' : l <> [] -> l' <> [] -> chain f s l s -> chain f s l' s -> NoDup l -> NoDup l' -> l = l'.
Proof.
  destruct l as [|x l], l' as [|y l']; try congruence. intros _ _ [-> C] [-> C'] N N'. f_equal. apply NoDup_cons_iff in N, N'. apply (chain_det f s l (f s)); tauto.
Qed.
Lemma triangulate_spec m f hs : Valid m -> NoDeadLoops m -> liveF m f -> chain (nx m) (fh m f) hs (fh m f) -> NoDup hs -> (3 <= length hs)%nat ->
  let d := Z.of_nat (length hs) in
  exists m', triangulate m f = Ok (m', f :: map (fun i => fFill m + Z.of_nat i) (seq 0 (length hs - 3))) /\ Valid m' /\ NoDeadLoops m' /\
    nVertices m' = nVertices m /\ nEdges m' = nEdges m + (d - 3) /\ nHalfedges m' = nHalfedges m + 2 * (d - 3) /\ nInterior m' = nInterior m + 2 * (d - 3) /\ nFaces m' = nFaces m + (d - 3) /\ nLoops m' = nLoops m /\
    (forall h, liveH m' h <-> liveH m h \/ heFill m <= h < heFill m + 2 * (d - 3)) /\ (forall v, liveV m' v <-> liveV m v) /\
    (forall g, liveF m' g <-> liveF m g \/ fFill m <= g < fFill m + (d - 3)) /\ (forall i, liveBL m' i <-> liveBL m i) /\
    (forall h, liveH m h -> ve m' h = ve m h) /\ (forall v, liveV m v -> vh m' v = vh m v) /\
    (forall h, liveH m h -> fa m h <> f -> nx m' h = nx m h /\ side m' h = side m h) /\
    (forall i, (i < length hs - 2)%nat -> exists h, liveH m' h /\ inTriangle m' h /\ ve m' h = ve m (nth 0 hs INVALID) /\ nx m' h = nth (i + 1) hs INVALID /\
       ve m' (nx m' (nx m' h)) = ve m (nth (i + 2) hs INVALID) /\ side m' h = FaceSide (if (i =? length hs - 3)%nat then f else fFill m + Z.of_nat i)).
Proof.
  intros V ND Lf C N Hd d. pose proof (va_cn _ V) as CN. destruct (cn_fh _ CN f (or_introl Lf)) as [L F].
  assert (Rf : 0 <= f < fFill m) by (apply Lf).
  assert (NE : ~ ext m (fh m f)) by (unfold ext; rewrite F; lia).
  assert (E : exists m', triangulate m f = Ok (m', [f] ++ map (fun i => fFill m + Z.of_nat i) (seq 0 (length (removelast (skipn 2 hs))))) /\ FanOut m m' (fh m f) (nth 1 hs INVALID) (removelast (skipn 2 hs)) (last hs INVALID)).
  { destruct hs as [|x [|c1 r]]; cbn in Hd; try lia. assert (x = fh m f) by apply C. subst x. cbn [skipn nth].
    assert (Hr : r <> []) by (intros ->; cbn in Hd; lia). assert (Er : r = removelast r ++ [last (fh m f :: c1 :: r) INVALID]).
    { replace (last (fh m f :: c1 :: r) INVALID) with (last r INVALID) by (destruct r; [congruence|reflexivity]). apply app_removelast_last. auto. }
    destruct (fan_loop_ok (removelast r) m (fh m f) c1 (last (fh m f :: c1 :: r) INVALID) [f] V ND L NE) as (m' & R & FO); [rewrite <- Er; auto|rewrite <- Er; auto|].
    exists m'. split; [|exact FO]. unfold triangulate. unfold isLoop. destruct (Z.ltb_spec f 0); [lia|]. destruct (Z.leb_spec (fFill m) f); [lia|]. cbn [orb negb guard bind].
    rewrite <- F at 1. rewrite isTriangle_ok by auto. cbn [bind]. destruct (Z.eqb_spec (nx m (nx m (nx m (fh m f)))) (fh m f)) as [T|T].
    - assert (removelast r = []) as Q. { cbn in C. destruct C as (_ & E1 & C). destruct r as [|y r]; [congruence|]. destruct C as [E2 C]. destruct r as [|z r]; [reflexivity|]. destruct C as [E3 C]. exfalso. apply NoDup_cons_iff in N as [N _]. apply N. right; right; left. congruence. }
      rewrite Q in *. cbn in R |- *. injection R as <-. reflexivity.
    - destruct (faceHalfedges_ok m V f (or_introl Lf)) as (l & El & Hl & Cl & Nl & Ml). rewrite El. cbn [bind]. rewrite fHe_ok by (apply (liveFL_bnd m V); left; auto). cbn [bind].
      assert (l = fh m f :: c1 :: r) as ->; [|cbn [skipn]; exact R]. apply (cycle_uniq (nx m) (fh m f)); auto. discriminate. }
  destruct E as (m' & R & [H1 H2 H3 H4 H5 H6 H7 H8 H9 H10 H11 H12]).
  assert (Lr : length (removelast (skipn 2 hs)) = (length hs - 3)%nat). { rewrite removelast_firstn_len, firstn_length, skipn_length. lia. }
  rewrite Lr in *. replace (Z.of_nat (length hs - 3)) with (d - 3) in * by (unfold d; lia). unfold counts in H3. injection H3 as A1 A2 A3 A4 A5 A6.
  exists m'. split; [exact R|]. do 8 (split; [auto|]). do 6 (split; [auto|]). split; [intros h Lh Kh; apply H10; auto; congruence|].
  intros i Hi. destruct (H12 i) as (h & P1 & P2 & P3 & P4 & P5 & P6); [lia|]. destruct hs as [|x [|c1 r]]; cbn in Hd; try lia. assert (x = fh m f) by apply C. subst x. cbn [skipn nth] in *.
  assert (Hr : r <> []) by (intros ->; cbn in Hd; lia). assert (Er : r = removelast r ++ [last (fh m f :: c1 :: r) INVALID]).
  { replace (last (fh m f :: c1 :: r) INVALID) with (last r INVALID) by (destruct r; [congruence|reflexivity]). apply app_removelast_last. auto. }
  exists h. split; auto. split; auto. split; auto. split.
  { rewrite P4. replace (i + 1)%nat with (S i) by lia. cbn [nth]. destruct i as [|i]; auto. rewrite Er at 2. rewrite app_nth1; auto. rewrite Lr. cbn in Hi |- *. lia. }
  split. { rewrite P5. replace (i + 2)%nat with (S (S i)) by lia. rewrite <- Er. reflexivity. }
  rewrite P6. cbn [length]. destruct (i =? S (S (length r)) - 3)%nat; auto. rewrite face_side by auto. rewrite F. auto.
Qed.
