(** Loop subdivision: splitting every edge. *)
From Coq Require Import Reals.
From Verif Require Import Base DataModel MeshModel MeshSpec MeshBase MeshOpSpec MeshOrbit MeshExec MeshSplit MeshDataModel MeshHistory CollapseSpec CountModel CountProofs GeoModel FastModel SubdivModel Subdiv1 DataProofs LoopModel.
Open Scope Z_scope.

(** an edge is not folded onto itself in a triangle without self edges *)
Lemma no_spike g a : Valid g -> triangular g -> noSelfEdges g -> liveH g a -> ~ ext g a -> nx g a <> tw a.
Proof.
  intros V TR NS L E K. pose proof (va_cn _ V) as CN. destruct (TR a L E) as (_ & T & _). set (b := nx g a) in *. assert (Lb : liveH g b) by (apply CN; auto). set (c := nx g b) in *. assert (Lc : liveH g c) by (apply CN; auto).
  apply (NS c Lc). transitivity (ve g (tw b)); [apply (cn_vnx _ CN); auto|]. rewrite K, tw_tw. rewrite <- (cn_vnx _ CN) by auto. congruence.
Qed.
(** splitting an edge: the halfedges that stay, stay interior or not *)
Lemma split_loop g e : Valid g -> NoDeadLoops g -> triangular g -> noSelfEdges g -> liveH g (eHe e) ->
  let a := eHe e in let b := tw a in let v := vFill g in let a' := heFill g in let b' := heFill g + 1 in
  exists g', splitEdgeTriangular g e = Ok (g', a) /\ Valid g' /\ NoDeadLoops g' /\ triangular g' /\ noSelfEdges g' /\ nVertices g' = nVertices g + 1 /\ nLoops g' = nLoops g /\
    (forall w, liveV g' w <-> liveV g w \/ w = v) /\ (forall h, liveH g h -> h <> a -> ve g' h = ve g h) /\ ve g' a = v /\ ve g' a' = ve g a /\ ve g' b' = v /\ tw a' = b' /\
    (forall h, h < heFill g -> (liveH g' h <-> liveH g h)) /\ liveH g' a' /\ liveH g' b' /\
    (forall h, liveH g h -> (ext g' h <-> ext g h)) /\ (forall h, liveH g' h -> liveH g h \/ ve g' h = v \/ ve g' (tw h) = v) /\
    (ext g b -> nEdges g' = nEdges g + 2 /\ nFaces g' = nFaces g + 1) /\ (~ ext g b -> nEdges g' = nEdges g + 3 /\ nFaces g' = nFaces g + 2).
Proof.
  intros V ND TR NS La a b v a' b'. fold a in La. pose proof (va_cn _ V) as CN. assert (Ia : ~ ext g a) by (apply (cn_ebd _ CN); auto; unfold a, eHe; lia). assert (Lb : liveH g b) by (apply CN; auto).
  assert (N1 : nx g a <> b) by (apply no_spike; auto).
  assert (N2 : nx g b <> a). { intros K. destruct (Z_lt_dec (fa g b) (fFill g)) as [H|H]; [|apply Ia; unfold ext; rewrite <- K, (cn_fnx _ CN) by auto; lia]. apply (no_spike g b); auto; [unfold ext; lia|]. unfold b at 2. rewrite tw_tw. auto. }
  destruct (split_spec g e V ND TR La N1 N2) as (g' & E & V' & ND' & TR' & CV & CL & LV & NV & VO & Va & Va' & Vb' & Vn1 & Vt1 & Tw1 & Tw2 & Tw3 & XO & TA & BD & INT & Sn1 & St1 & S2).
  fold a in E, VO, Va, Va', Vb', Vn1, Vt1, XO, TA, BD, INT, Sn1, S2. fold b in XO, BD, INT, S2. fold v in Va, Vb', Vn1, LV. fold b' in Vb', Tw1. fold a' in Va', Tw1. destruct TA as (A1 & A2 & A3 & A4 & A5 & A6). pose proof (va_cn _ V') as CN'.
  assert (La1 : liveH g (nx g a)) by (apply CN; auto). assert (La2 : liveH g (nx g (nx g a))) by (apply CN; auto). assert (Lb1 : liveH g (nx g b)) by (apply CN; auto). assert (Lb2 : liveH g (nx g (nx g b))) by (apply CN; auto).
  assert (VB : forall h, liveH g h -> ve g h < v) by (intros h K; apply (cn_ve _ CN) in K; apply K).
  assert (HL : forall h, liveH g h -> h < heFill g) by (intros h K; apply K).
  assert (LH : forall h, liveH g h -> liveH g' h) by (intros h K; destruct (Z_lt_dec (fa g b) (fFill g)) as [H|H]; [apply INT; [unfold ext; lia|auto]|apply BD; [unfold ext; lia|auto]]).
  assert (LN : liveH g' a' /\ liveH g' b') by (split; (destruct (Z_lt_dec (fa g b) (fFill g)) as [H|H]; [apply INT; [unfold ext; lia|right; unfold a', b'; lia]|apply BD; [unfold ext; lia|right; unfold a', b'; lia]])).
  assert (LO : forall h, liveH g' h -> liveH g h \/ a' <= h <= heFill g + 3 \/ ~ ext g b /\ a' <= h <= heFill g + 5).
  { intros h K. destruct (Z_lt_dec (fa g b) (fFill g)) as [H|H]; [apply INT in K; [|unfold ext; lia]|apply BD in K; [|unfold ext; lia]]; destruct K as [K|K]; auto. right; right. split; [unfold ext; lia|lia]. }
  exists g'. split; [exact E|]. split; [exact V'|]. split; [exact ND'|]. split; [exact TR'|]. split; [|split; [exact CV|split; [exact CL|split; [exact LV|split; [exact VO|split; [exact Va|split; [exact Va'|split; [exact Vb'|split; [exact Tw1|split; [|split; [apply LN|split; [apply LN|split; [|split; [|split]]]]]]]]]]]]]].
  - assert (NSo : forall h, liveH g h -> ve g' h <> ve g' (tw h)).
    { intros h L. assert (Lt : liveH g (tw h)) by (apply CN; auto). destruct (Z.eq_dec h a) as [->|Nh]; [rewrite Va, VO by (auto; apply tw_neq); specialize (VB _ Lt); lia|].
      rewrite (VO h) by auto. destruct (Z.eq_dec (tw h) a) as [->|Nt]; [rewrite Va; specialize (VB _ L); lia|]. rewrite VO by auto. auto. }
    intros h L. destruct (LO h L) as [K|K]; [auto|].
    assert (Q : h = a' \/ h = b' \/ h = heFill g + 2 \/ h = heFill g + 3 \/ ~ ext g b /\ (h = heFill g + 4 \/ h = heFill g + 5)) by (unfold a', b' in *; destruct K as [K|[NE K]]; [clear - K; lia|]; assert (K' : h = heFill g \/ h = heFill g + 1 \/ h = heFill g + 2 \/ h = heFill g + 3 \/ (h = heFill g + 4 \/ h = heFill g + 5)) by (clear - K; lia); tauto).
    assert (Tb' : tw b' = a') by (rewrite <- Tw1; apply tw_tw). assert (B0 := VB _ La). assert (B1 := VB _ La2). assert (B2 := VB _ Lb2).
    destruct Q as [->|[->|[->|[->|(NE & [->| ->])]]]].
    + rewrite Tw1, Va', Vb'. lia.
    + rewrite Tb', Va', Vb'. lia.
    + rewrite Tw2, Vn1, Vt1. lia.
    + rewrite <- Tw2, tw_tw, Tw2, Vn1, Vt1. lia.
    + destruct (INT NE) as (_ & _ & _ & _ & _ & _ & _ & _ & _ & _ & _ & _ & Vn2 & Vt2). rewrite Tw3, Vn2, Vt2. fold v. lia.
    + destruct (INT NE) as (_ & _ & _ & _ & _ & _ & _ & _ & _ & _ & _ & _ & Vn2 & Vt2). rewrite <- Tw3, tw_tw, Tw3, Vn2, Vt2. fold v. lia.
  - intros h H. split; [|auto]. intros K. destruct (LO h K) as [Q|Q]; auto. unfold a' in Q. lia.
  - assert (SD : forall h k, side g' h = side g k -> (ext g' h <-> ext g k)).
    { intros h k K. unfold side, ext in *. destruct (Z.leb_spec (fFill g') (fa g' h)), (Z.leb_spec (fFill g) (fa g k)); try discriminate K; split; lia. }
    assert (SN : forall h f, side g' h = FaceSide f -> ~ ext g' h) by (intros h f K; unfold side, ext in *; destruct (Z.leb_spec (fFill g') (fa g' h)); [discriminate K|lia]).
    assert (EN : forall h, liveH g' h -> (ext g' (nx g' h) <-> ext g' h)) by (intros h L; unfold ext; rewrite (cn_fnx _ CN') by auto; tauto).
    assert (EO : forall h, liveH g h -> (ext g (nx g h) <-> ext g h)) by (intros h L; unfold ext; rewrite (cn_fnx _ CN) by auto; tauto).
    intros h L. destruct (Z.eq_dec (fa g h) (fa g a)) as [Fa|Fa].
    + assert (NE : ~ ext g h) by (unfold ext in *; rewrite Fa; auto).
      assert (X : ~ ext g' h); [|tauto]. assert (Ea : ~ ext g' a) by (apply (cn_ebd _ CN'); auto; unfold a, eHe; lia).
      assert (Ea1 : ~ ext g' (nx g a)) by (rewrite <- A1, EN by auto; auto).
      assert (Ea2 : ~ ext g' (nx g (nx g a))). { assert (En1 : ~ ext g' (heFill g + 2)) by (rewrite (SD _ a Sn1); auto). rewrite <- A4, EN; auto. rewrite <- A6. apply CN'. apply LN. }
      destruct (tri_members g a h CN La) as [->|[->| ->]]; auto. apply TR; auto.
    + destruct (Z.eq_dec (fa g h) (fa g b)) as [Fb|Fb]; [|apply SD, XO; auto].
      destruct (Z_lt_dec (fa g b) (fFill g)) as [H|H]; [|apply SD, BD; auto; unfold ext; lia]. assert (NEb : ~ ext g b) by (unfold ext; lia).
      assert (NE : ~ ext g h) by (unfold ext in *; rewrite Fb; auto). assert (X : ~ ext g' h); [|tauto].
      destruct (S2 NEb) as (Sn2 & St2). destruct (INT NEb) as (_ & _ & _ & _ & LI & _ & B1 & B2 & B3 & B4 & B5 & B6 & _).
      assert (En : ~ ext g' (heFill g + 4)) by (rewrite (SD _ b Sn2); auto). assert (Et : ~ ext g' (heFill g + 5)) by (apply (SN _ _ St2)).
      assert (Ln : liveH g' (heFill g + 4)) by (apply LI; right; unfold a'; lia). assert (Lt : liveH g' (heFill g + 5)) by (apply LI; right; unfold a'; lia).
      assert (E2 : ~ ext g' (nx g (nx g b))) by (rewrite <- B2, EN by auto; auto). assert (E1 : ~ ext g' b) by (rewrite <- B3, EN by auto; auto).
      assert (E3 : ~ ext g' (nx g b)). { rewrite <- B4, EN by apply LN. rewrite <- B6, EN by auto. auto. }
      destruct (tri_members g b h CN Lb) as [->|[->| ->]]; auto. apply TR; auto.
  - intros h L. destruct (LO h L) as [K|K]; [auto|]. right.
    assert (Q : h = a' \/ h = b' \/ h = heFill g + 2 \/ h = heFill g + 3 \/ ~ ext g b /\ (h = heFill g + 4 \/ h = heFill g + 5)) by (unfold a', b' in *; destruct K as [K|[NE K]]; [clear - K; lia|]; assert (K' : h = heFill g \/ h = heFill g + 1 \/ h = heFill g + 2 \/ h = heFill g + 3 \/ (h = heFill g + 4 \/ h = heFill g + 5)) by (clear - K; lia); tauto).
    destruct Q as [->|[->|[->|[->|(NE & [->| ->])]]]].
    + right. rewrite Tw1. auto.
    + auto.
    + auto.
    + right. rewrite <- Tw2, tw_tw. auto.
    + destruct (INT NE) as (_ & _ & _ & _ & _ & _ & _ & _ & _ & _ & _ & _ & Vn2 & Vt2). auto.
    + destruct (INT NE) as (_ & _ & _ & _ & _ & _ & _ & _ & _ & _ & _ & _ & Vn2 & Vt2). right. rewrite <- Tw3, tw_tw. auto.
  - intros K. destruct (BD K) as (K1 & _ & _ & K2 & _). auto.
  - intros K. destruct (INT K) as (K1 & _ & _ & K2 & _). auto.
Qed.

Lemma other_ok g h : Valid g -> liveH g h -> otherVertex g (edge h) (ve g h) = Ok (ve g (tw h)).
Proof.
  intros V L. pose proof (va_cn _ V) as CN. set (k := eHe (edge h)). assert (Kk : k = h \/ k = tw h) by (apply edge_eq; unfold k; apply edge_eHe).
  assert (Lk : liveH g k) by (destruct Kk as [->| ->]; auto; apply CN; auto). unfold otherVertex. fold k. rewrite (vOf _ _ V) by auto. cbn [bind]. rewrite (tip_ok g k V Lk).
  destruct Kk as [->|Kk]; [rewrite Z.eqb_refl; auto|]. rewrite Kk, tw_tw. destruct (Z.eqb_spec (ve g (tw h)) (ve g h)) as [->|]; auto.
Qed.
Lemma NoDup_app_intro {A} (l k : list A) : NoDup l -> NoDup k -> (forall x, In x l -> ~ In x k) -> NoDup (l ++ k).
Proof. induction l as [|a l IH]; intros H1 H2 H3; auto. apply NoDup_cons_iff in H1 as [H0 H1]. cbn [app]. constructor; [|apply IH; auto; intros; apply H3; right; auto]. intros I. apply in_app_or in I as [I|I]; [auto|]. apply (H3 a); [left|]; auto. Qed.
Lemma mark_ok g v oa ob hs : Valid g -> (forall h, In h hs -> liveH g h /\ ve g h = v) -> forall r, lM r = g ->
  exists r', foldM (markEdge v oa ob) hs r = Ok r' /\ lM r' = g /\ lV r' = lV r /\ lP r' = lP r /\
    (forall e, (forall h, In h hs -> edge h <> e) -> lE r' e = lE r e) /\
    (forall f, In f (lFlip r') -> In f (lFlip r) \/ exists h, In h hs /\ f = edge h /\ ve g (tw h) <> oa /\ ve g (tw h) <> ob /\ lV r (ve g (tw h)) = true) /\
    (NoDup (lFlip r) -> NoDup (map edge hs) -> (forall h, In h hs -> ~ In (edge h) (lFlip r)) -> NoDup (lFlip r')).
Proof.
  intros V. induction hs as [|h hs IH]; intros H r R; cbn [foldM].
  - exists r. repeat (split; [auto; fail|]). auto.
  - destruct (H h (or_introl eq_refl)) as [L Vh]. unfold markEdge at 1. rewrite R, <- Vh, (other_ok g h V L). cbn [bind]. rewrite Vh. set (w := ve g (tw h)).
    set (r1 := mkLoop _ _ _ _ _). destruct (IH ltac:(intros; apply H; right; auto) r1 eq_refl) as (r' & E & A1 & A2 & A3 & A4 & A5 & A6). exists r'. split; [exact E|]. split; [exact A1|]. split; [exact A2|]. split; [exact A3|]. split; [|split].
    + intros e K. rewrite A4 by (intros; apply K; right; auto). unfold r1; cbn [lE]. unfold setf. rewrite (proj2 (Z.eqb_neq _ _)); auto. intros Q. apply (K h); [left; auto|auto].
    + intros f I. destruct (A5 f I) as [I'|(k & Ik & K)]; [|right; exists k; split; [right; auto|auto]]. unfold r1 in I'; cbn [lFlip] in I'.
      destruct (lV r w && negb (w =? oa) && negb (w =? ob)) eqn:B; [|auto]. apply in_app_or in I' as [I'|[<-|[]]]; [auto|]. right. exists h. split; [left; auto|]. split; auto.
      apply andb_prop in B as [B B2]. apply andb_prop in B as [B0 B1]. apply negb_true_iff in B1, B2. apply Z.eqb_neq in B1, B2. auto.
    + intros N1 N2 N3. cbn [map] in N2. apply NoDup_cons_iff in N2 as [N2 N4]. assert (NH : ~ In (edge h) (lFlip r)) by (apply N3; left; auto). apply A6; auto.
      * unfold r1; cbn [lFlip]. destruct (_ && _); auto. apply NoDup_app_intro; auto; [repeat constructor; auto|]. intros x I [<-|[]]; auto.
      * intros k Ik. unfold r1; cbn [lFlip]. assert (Nk : ~ In (edge k) (lFlip r)) by (apply N3; right; auto). destruct (_ && _); auto. intros I. apply in_app_or in I as [I|[I|[]]]; auto. apply N2. rewrite I. apply in_map; auto.
Qed.

Section Loop.
Context (m : mesh) (V : Valid m).
Let CN := va_cn _ V.
(** the state of the loop over the edges: the edges below i are split. M e is the new vertex of edge e; W h goes from the tail of h to it *)
Record LoopTo (pos edgePt : Z -> V3) (i : nat) (r : looping) (M W : Z -> Z) : Prop := {
  lt_v : Valid (lM r); lt_nd : NoDeadLoops (lM r); lt_tr : triangular (lM r); lt_ns : noSelfEdges (lM r);
  lt_fill : vFill m <= vFill (lM r) /\ heFill m <= heFill (lM r);
  lt_live : forall h, h < heFill m -> (liveH (lM r) h <-> liveH m h);
  lt_ext : forall h, liveH m h -> (ext (lM r) h <-> ext m h);
  lt_todo : forall h, liveH m h -> Z.of_nat i <= edge h -> ve (lM r) h = ve m h;
  lt_vert : forall v, liveV (lM r) v <-> liveV m v \/ exists e, upto m i e /\ v = M e;
  lt_M : forall e, upto m i e -> vFill m <= M e < vFill (lM r);
  lt_inj : forall e k, upto m i e -> upto m i k -> M e = M k -> e = k;
  lt_W : forall h, liveH m h -> edge h < Z.of_nat i -> liveH (lM r) (W h) /\ ve (lM r) (W h) = ve m h /\ ve (lM r) (tw (W h)) = M (edge h) /\ (W h < heFill m -> W h = h);
  lt_e : forall e, Z.of_nat i <= e < eFill m -> lE r e = true;
  lt_flip : forall f, In f (lFlip r) -> liveH (lM r) (eHe f) /\ heFill m <= eHe f /\ forall h, liveH m h -> edge h < Z.of_nat i -> edge (W h) <> f;
  lt_list : NoDup (lFlip r) /\ forall f, In f (lFlip r) -> ve (lM r) (eHe f) < vFill m \/ ve (lM r) (tw (eHe f)) < vFill m;
  lt_lV : forall v, liveV (lM r) v -> vFill m <= v -> lV r v = false;
  lt_old : forall x, liveH (lM r) x -> ve (lM r) x < vFill m -> ve (lM r) (tw x) < vFill m -> liveH m x /\ Z.of_nat i <= edge x;
  lt_pv : forall v, v < vFill m -> lP r v = pos v;
  lt_p : forall e, upto m i e -> lP r (M e) = edgePt e;
  lt_cnt : nVertices (lM r) = nVertices m + countb (fun e => liveHb m (2 * e)) (Z.of_nat i) /\ nLoops (lM r) = nLoops m /\
    nEdges (lM r) = nEdges m + countb (fun e => liveHb m (2 * e)) (Z.of_nat i) + countb (intHb m) (2 * Z.of_nat i) /\ nFaces (lM r) = nFaces m + countb (intHb m) (2 * Z.of_nat i) }.
Lemma edge_live h : liveH m h -> liveH m (eHe (edge h)).
Proof. intros L. assert (K : eHe (edge h) = h \/ eHe (edge h) = tw h) by (apply edge_eq, edge_eHe). destruct K as [->| ->]; auto. apply CN; auto. Qed.
Lemma loopTo_step pos edgePt i r M W : LoopTo pos edgePt i r M W -> Z.of_nat i < eFill m ->
  exists r' M' W', (if okayAt (lM r) EEdge i then splitLoop edgePt r (Z.of_nat i) else Ok r) = Ok r' /\ LoopTo pos edgePt (Datatypes.S i) r' M' W'.
Proof.
  intros [VG ND TR NS (FV & FH) LL EX TD LV MB MI WW LE LF (LN & LO2) LBV OLD PV PP (C1 & C2 & C3 & C4)] Hi. set (e := Z.of_nat i) in *. set (g := lM r) in *. assert (ST := va_st _ V). assert (STG := va_st _ VG).
  assert (HE : heFill m = 2 * eFill m) by apply ST. assert (HG : heFill g = 2 * eFill g) by apply STG. assert (E0 : 0 <= e) by (unfold e; lia).
  assert (CS : countb (fun e => liveHb m (2 * e)) (Z.of_nat (Datatypes.S i)) = countb (fun e => liveHb m (2 * e)) e + b2z (liveHb m (2 * e))) by (rewrite Nat2Z.inj_succ; fold e; unfold Z.succ; rewrite (countb_S (fun e => liveHb m (2 * e)) e) by lia; reflexivity).
  assert (CI : countb (intHb m) (2 * Z.of_nat (Datatypes.S i)) = countb (intHb m) (2 * e) + b2z (intHb m (2 * e)) + b2z (intHb m (2 * e + 1))).
  { rewrite Nat2Z.inj_succ; fold e. replace (2 * Z.succ e) with (2 * e + 1 + 1) by lia. rewrite !countb_S by lia. lia. }
  assert (RE : 0 <= eHe e < heFill m) by (unfold eHe; lia). assert (LG : liveH g (eHe e) <-> liveH m (eHe e)) by (apply LL; lia).
  assert (OK : okayAt g EEdge i = true <-> liveH g (eHe e)) by (apply (okay_live g EEdge i VG); cbn [fillOf]; lia).
  assert (UP : forall x, upto m (Datatypes.S i) x <-> upto m i x \/ (x = e /\ liveH m (eHe e))).
  { intros x. unfold upto. rewrite Nat2Z.inj_succ. fold e. split; [intros [A B]; destruct (Z.eq_dec x e) as [->|N]; [auto|left; split; [auto|lia]]|intros [[A B]|[-> A]]; split; auto; lia]. }
  assert (SI : Z.of_nat (Datatypes.S i) = e + 1) by (rewrite Nat2Z.inj_succ; reflexivity).
  destruct (okayAt g EEdge i) eqn:EO.
  - assert (L : liveH m (eHe e)) by (apply LG, OK; auto). assert (Lg : liveH g (eHe e)) by (apply LG; auto). set (a := eHe e) in *. set (b := tw a).
    assert (Lbm : liveH m b) by (apply CN; auto). assert (Lb : liveH g b) by (apply (va_cn _ VG); auto).
    destruct (split_loop g e VG ND TR NS Lg) as (g' & E & V' & ND' & TR' & NS' & N1 & N2 & LV' & VO & Va & Va' & Vb' & Tw & LO & LA & LB & EX' & NWV & BD & INT). fold a in E, VO, Va, Va', BD, INT. fold b in BD, INT.
    assert (CN' := va_cn _ V'). assert (CG := va_cn _ VG).
    assert (La' : liveH g' a) by (apply LO; [apply Lg|auto]). assert (Lb' : liveH g' b) by (apply CN'; auto).
    assert (Lv : liveV g' (vFill g)) by (apply LV'; auto). assert (F1 : vFill g < vFill g') by (apply Lv). assert (F2 : heFill g < heFill g') by (apply LA).
    assert (RV : forall h, liveH g h -> ve g h < vFill g) by (intros h K; apply (cn_ve _ CG) in K; apply K).
    assert (Ea : edge a = e) by (unfold a; apply edge_eHe). assert (Eb : edge b = e) by (unfold b; rewrite tw_edge; auto).
    assert (Vga : ve g a = ve m a) by (apply TD; auto; lia). assert (Vgb : ve g b = ve m b) by (apply TD; auto; lia).
    destruct (vertHalfedges_ok g' V' _ Lv) as (hs & Eh & _ & _ & NDh & MEM).
    set (r1 := mkLoop g' (setf (lV r) (vFill g) false) (lE r) (setf (lP r) (vFill g) (edgePt e)) (lFlip r)).
    destruct (mark_ok g' (vFill g) (ve g b) (ve g a) hs V' (fun h K => proj1 (MEM h) K) r1 eq_refl) as (r' & Er & R1 & R2 & R3 & R4 & R5 & R6).
    assert (OUT : forall h, In h hs -> h = a \/ h = heFill g + 1 \/ heFill g + 2 <= h).
    { intros h I. apply MEM in I as [Lh Vh]. destruct (Z.eq_dec h a) as [->|Na]; [auto|right]. destruct (Z_lt_dec h (heFill g)) as [K|K]; [exfalso; apply LO in Lh; auto; rewrite VO in Vh by auto; specialize (RV h Lh); lia|].
      destruct (Z.eq_dec h (heFill g)) as [->|K2]; [exfalso; rewrite Va' in Vh; specialize (RV a Lg); lia|]. lia. }
    set (M' := fun x => if x =? e then vFill g else M x). set (W' := fun h => if h =? a then heFill g else if h =? b then b else W h).
    assert (Me : M' e = vFill g) by (unfold M'; rewrite Z.eqb_refl; auto). assert (Mo : forall x, x <> e -> M' x = M x) by (intros x K; unfold M'; rewrite (proj2 (Z.eqb_neq _ _) K); auto).
    assert (Wa : W' a = heFill g) by (unfold W'; rewrite Z.eqb_refl; auto). assert (Wb : W' b = b) by (unfold W'; rewrite Z.eqb_refl; destruct (b =? a) eqn:K; auto; apply Z.eqb_eq in K; destruct (tw_neq a K)).
    assert (Wo : forall h, edge h <> e -> W' h = W h) by (intros h K; unfold W'; rewrite !(proj2 (Z.eqb_neq _ _)); auto; intros ->; auto).
    assert (UO : forall x, upto m (Datatypes.S i) x -> x = e \/ x <> e /\ upto m i x) by (intros x Hx; apply UP in Hx; destruct (Z.eq_dec x e); [auto|right]; destruct Hx as [Hx|[Hx _]]; [auto|contradiction]).
    exists r', M', W'. split.
    { unfold splitLoop. rewrite (LE e) by lia. cbn [negb]. fold g. fold a.
      assert (TO : (let* n := next g a in vertexOf g n) = Ok (ve g b)) by (apply tip_ok; auto). apply bind_Ok_inv in TO as (n & En & TO). rewrite En. cbn [bind]. rewrite TO. cbn [bind]. rewrite (vOf _ _ VG) by auto. cbn [bind].
      rewrite E. cbn [bind]. rewrite (vOf _ _ V') by auto. cbn [bind]. rewrite Va, Eh. cbn [bind]. exact Er. }
    assert (AB : forall h, liveH m h -> edge h = e -> h = a \/ h = b) by (intros h Lh K; rewrite <- Ea in K; apply edge_eq in K; auto).
    constructor; rewrite ?R1; auto.
    + lia.
    + intros h H. rewrite LO by lia. apply LL; auto.
    + intros h Lh. rewrite EX' by (apply LL; auto; apply Lh). apply EX; auto.
    + intros h Lh K. rewrite SI in K. rewrite VO; [apply TD; auto; lia|apply LL; auto; apply Lh|intros ->; lia].
    + intros v. rewrite LV', LV. split.
      * intros [[K|(x & Hx & ->)]| ->]; [auto| |right; exists e; split; [apply UP; auto|auto]]. right. exists x. split; [apply UP; auto|]. symmetry. apply Mo. intros ->. destruct Hx as [_ Hx]. fold e in Hx. lia.
      * intros [K|(x & Hx & ->)]; [auto|]. destruct (UO x Hx) as [->|[Nx Hx']]; [auto|]. left. right. exists x. split; auto.
    + intros x Hx. destruct (UO x Hx) as [->|[Nx Hx']]; [rewrite Me; lia|]. rewrite Mo by auto. specialize (MB x Hx'). lia.
    + intros x y Hx Hy K. destruct (UO x Hx) as [->|[Nx Hx']], (UO y Hy) as [->|[Ny Hy']]; auto.
      * rewrite Me, Mo in K by auto. specialize (MB y Hy'). lia.
      * rewrite Me, Mo in K by auto. specialize (MB x Hx'). lia.
      * rewrite !Mo in K by auto. auto.
    + intros h Lh K. rewrite SI in K. destruct (Z.eq_dec (edge h) e) as [Q|Q].
      * rewrite Q, Me. destruct (AB h Lh Q) as [->| ->].
        -- rewrite Wa, Tw. split; [auto|]. split; [congruence|]. split; [auto|lia].
        -- rewrite Wb. split; [auto|]. split; [rewrite VO by (auto; apply tw_neq); auto|]. split; [unfold b; rewrite tw_tw; auto|auto].
      * rewrite Wo, Mo by auto. destruct (WW h Lh) as (W1 & W2 & W3 & W4); [lia|]. assert (Lt : liveH g (tw (W h))) by (apply CG; auto).
        assert (NW : W h <> a /\ tw (W h) <> a). { split; intros K2.
          - assert (W h = h) by (apply W4; rewrite K2; lia). apply Q. rewrite <- H, K2. auto.
          - assert (KK : W h = b) by (unfold b; rewrite <- K2, tw_tw; auto). assert (W h = h) by (apply W4; rewrite KK; apply Lbm). apply Q. rewrite <- H, KK. auto. }
        split; [apply LO; auto; apply W1|]. rewrite !VO by tauto. auto.
    + intros x Hx. rewrite SI in Hx. rewrite R4; [unfold r1; cbn [lE]; apply LE; lia|]. intros h I K. destruct (OUT h I) as [->|[->|K2]]; [lia| |].
      * unfold edge in K. clear - K HG Hx HE FH. assert (heFill g / 2 <= (heFill g + 1) / 2) by (apply Z.div_le_mono; lia). rewrite HG in H at 1. rewrite Z.mul_comm, Z.div_mul in H by lia. lia.
      * unfold edge in K. clear - K K2 HG Hx HE FH. assert (heFill g / 2 <= h / 2) by (apply Z.div_le_mono; lia). rewrite HG in H at 1. rewrite Z.mul_comm, Z.div_mul in H by lia. lia.
    + intros f I. assert (EW : forall h, liveH m h -> edge h < Z.of_nat (Datatypes.S i) -> edge (W' h) = e \/ edge (W' h) = edge (heFill g) \/ (edge h < e /\ W' h = W h)).
      { intros h Lh K. rewrite SI in K. destruct (Z.eq_dec (edge h) e) as [Q|Q]; [destruct (AB h Lh Q) as [->| ->]; [rewrite Wa; auto|rewrite Wb; auto]|]. rewrite Wo by auto. right; right. split; [lia|auto]. }
      assert (EG : edge (heFill g) = eFill g) by (unfold edge; rewrite HG, Z.mul_comm, Z.div_mul; lia).
      destruct (R5 f I) as [I'|(h & Ih & -> & K1 & K2 & _)].
      * cbn [lFlip r1] in I'. destruct (LF f I') as (X1 & X2 & X3). split; [apply LO; [apply X1|auto]|]. split; [auto|]. intros h Lh K. destruct (EW h Lh K) as [Q|[Q|[Q1 Q2]]]; [rewrite Q; unfold eHe in X2; lia|rewrite Q, EG; destruct X1 as [X1 _]; unfold eHe in X1; lia|]. rewrite Q2. apply X3; auto.
      * assert (H2 : heFill g + 2 <= h). { destruct (OUT h Ih) as [->|[->|K]]; [| |exact K]; exfalso; [apply K1; fold b; apply VO; auto; apply tw_neq|]. apply K2. rewrite <- Tw, tw_tw. auto. }
        assert (QH : eHe (edge h) = h \/ eHe (edge h) = tw h) by (apply edge_eq, edge_eHe). apply MEM in Ih as [Lh _].
        assert (GE : eFill g + 1 <= edge h). { unfold edge. clear - H2 HG. assert ((heFill g + 2) / 2 <= h / 2) by (apply Z.div_le_mono; lia). replace (heFill g + 2) with ((eFill g + 1) * 2) in H by lia. rewrite Z.div_mul in H by lia. lia. }
        split; [destruct QH as [->| ->]; auto; apply CN'; auto|]. split; [unfold eHe; lia|]. intros k Lk K. destruct (EW k Lk K) as [Q|[Q|[Q1 Q2]]]; [rewrite Q; lia|rewrite Q, EG; lia|].
        rewrite Q2. destruct (WW k Lk Q1) as (X1 & _). intros X. apply edge_eq in X. destruct X1 as [X1 _]. destruct X as [X|X]; [lia|]. apply (f_equal edge) in X. rewrite tw_edge in X. unfold edge in X, GE. assert (W k / 2 <= heFill g / 2) by (apply Z.div_le_mono; lia). unfold edge in EG. lia.
    + assert (GEh : forall h, In h hs -> edge h = e \/ eFill g <= edge h).
      { intros h Ih. destruct (OUT h Ih) as [->|K]; [auto|right]. assert (K' : heFill g <= h) by lia. unfold edge. clear - K' HG. assert (heFill g / 2 <= h / 2) by (apply Z.div_le_mono; lia). rewrite HG in H at 1. rewrite Z.mul_comm, Z.div_mul in H by lia. lia. }
      split.
      * apply R6; [exact LN| |].
        -- clear - NDh MEM NS'. assert (G : forall h, In h hs -> liveH g' h /\ ve g' h = vFill g) by (intros h I; apply MEM; auto). clear MEM. induction hs as [|x l IH]; cbn [map]; constructor; apply NoDup_cons_iff in NDh as [N1 N2]; [|apply IH; auto; intros; apply G; right; auto].
           intros I. apply in_map_iff in I as (y & Ey & Iy). apply edge_eq in Ey as [->| ->]; [auto|]. destruct (G x) as [Lx Vx]; [left; auto|]. destruct (G (tw x)) as [_ Vy]; [right; auto|]. apply (NS' x Lx). congruence.
        -- intros h Ih I. cbn [lFlip r1] in I. destruct (LF _ I) as (X1 & X2 & _). destruct (GEh h Ih) as [K|K]; [rewrite K in X2; lia|]. destruct X1 as [X1 _]. unfold eHe in X1. lia.
      * intros f I. destruct (R5 f I) as [I'|(h & Ih & -> & _ & _ & K3)].
        -- cbn [lFlip r1] in I'. destruct (LF f I') as (X1 & X2 & _). assert (X3 : liveH g (tw (eHe f))) by (apply CG; auto). rewrite !VO; auto; [intros K|intros K; lia]. apply (f_equal edge) in K. rewrite tw_edge, edge_eHe, Ea in K. rewrite K in X2. lia.
        -- cbn [lV r1] in K3. apply MEM in Ih as [Lh Vh]. assert (Lt : liveH g' (tw h)) by (apply CN'; auto). assert (Kt : ve g' (tw h) < vFill m).
           { destruct (Z_lt_dec (ve g' (tw h)) (vFill m)) as [K|K]; [auto|exfalso]. unfold setf in K3. destruct (Z.eqb_spec (ve g' (tw h)) (vFill g)) as [K4|K4]; [discriminate K3|]. pose proof (cn_ve _ CN' _ Lt) as Q. apply LV' in Q. destruct Q as [Q|Q]; [|contradiction]. rewrite LBV in K3; [discriminate K3|auto|lia]. }
           assert (QH : eHe (edge h) = h \/ eHe (edge h) = tw h) by (apply edge_eq, edge_eHe). destruct QH as [->| ->]; [right|left]; auto.
    + intros v Hv Hm. rewrite R2. cbn [lV r1]. unfold setf. destruct (Z.eqb_spec v (vFill g)) as [K|K]; [auto|]. apply LV' in Hv as [Hv|Hv]; [auto|contradiction].
    + intros x Lx K1 K2. rewrite SI. destruct (NWV x Lx) as [Lxg|[Q|Q]]; [|lia|lia].
      assert (Nx : x <> a) by (intros ->; lia). assert (Nt : tw x <> a) by (intros Q; rewrite Q in K2; lia). assert (Lt : liveH g (tw x)) by (apply CG; auto). rewrite VO in K1, K2 by auto. destruct (OLD x Lxg K1 K2) as [Lm Hx]. split; [auto|].
      assert (edge x <> e); [|lia]. intros Q. destruct (AB x Lm Q) as [->| ->]; [auto|]. apply Nt. unfold b. apply tw_tw.
    + intros v Hv. rewrite R3. cbn [lP r1]. unfold setf. rewrite (proj2 (Z.eqb_neq _ _)) by lia. auto.
    + intros x Hx. rewrite R3. cbn [lP r1]. unfold setf. destruct (UO x Hx) as [->|[Nx Hx']]; [rewrite Me, Z.eqb_refl; auto|]. rewrite Mo by auto. specialize (MB x Hx'). rewrite (proj2 (Z.eqb_neq _ _)) by lia. auto.
    + assert (B1 : b2z (liveHb m (2 * e)) = 1). { unfold liveHb. destruct L as [_ L]. unfold a, eHe in L. rewrite (proj2 (Z.eqb_neq _ _) L). reflexivity. }
      assert (B2 : b2z (intHb m (2 * e)) = 1). { assert (Q : ~ ext m a) by (apply (cn_ebd _ CN); auto; unfold a, eHe; lia). unfold intHb. unfold ext, a, eHe in Q. rewrite (proj2 (Z.leb_gt _ _)) by lia. cbn [negb]. rewrite andb_true_r. exact B1. }
      assert (Ebb : b = 2 * e + 1) by (unfold b, a; apply tw_eHe). assert (LBb : liveHb m (2 * e + 1) = true) by (unfold liveHb; rewrite <- Ebb; destruct Lbm as [_ K]; rewrite (proj2 (Z.eqb_neq _ _) K); reflexivity).
      rewrite CS, CI, B1, B2. specialize (EX b Lbm). fold e in C1, C3, C4. destruct (Z_lt_dec (fa m b) (fFill m)) as [K|K].
      * assert (Q : ~ ext g b) by (rewrite EX; unfold ext; lia). destruct (INT Q) as [I1 I2]. assert (B3 : b2z (intHb m (2 * e + 1)) = 1) by (unfold intHb; rewrite LBb, <- Ebb, (proj2 (Z.leb_gt _ _)) by lia; reflexivity). rewrite B3. lia.
      * assert (Q : ext g b) by (rewrite EX; unfold ext; lia). destruct (BD Q) as [I1 I2]. assert (B3 : b2z (intHb m (2 * e + 1)) = 0) by (unfold intHb; rewrite LBb, <- Ebb, (proj2 (Z.leb_le _ _)) by lia; reflexivity). rewrite B3. lia.
  - exists r, M, W. split; auto. assert (NL : ~ liveH m (eHe e)) by (intros K; apply LG, OK in K; congruence).
    assert (UE : forall x, upto m (Datatypes.S i) x <-> upto m i x) by (intros x; rewrite UP; tauto).
    assert (EE : forall h, liveH m h -> edge h < Z.of_nat (Datatypes.S i) -> edge h < e) by (intros h Lh K; rewrite SI in K; assert (edge h <> e) by (intros Q; apply NL; rewrite <- Q; apply edge_live; auto); lia).
    assert (DD : nx m (2 * e) = -1) by (destruct (Z.eq_dec (nx m (2 * e)) (-1)) as [K|K]; [auto|exfalso; apply NL; split; auto]).
    assert (DD' : nx m (2 * e + 1) = -1). { destruct (Z.eq_dec (nx m (2 * e + 1)) (-1)) as [K|K]; [auto|exfalso; apply NL]. assert (L1 : liveH m (2 * e + 1)) by (split; [unfold eHe in RE; lia|auto]). rewrite <- (tw_tw (eHe e)), tw_eHe. apply CN; auto. }
    constructor; auto.
    + intros h Lh K. apply TD; auto. rewrite SI in K. lia.
    + intros v. fold g. rewrite LV. split; (intros [K|(x & Hx & ->)]; [auto|right; exists x; split; auto; apply UE; auto]).
    + intros x K. apply MB, UE; auto.
    + intros x y K1 K2. apply MI; apply UE; auto.
    + intros x K. apply LE. rewrite SI in K. lia.
    + intros f I. destruct (LF f I) as (X1 & X2 & X3). split; auto.
    + intros x Lx K1 K2. destruct (OLD x Lx K1 K2) as [Lm Hx]. split; [auto|]. rewrite SI. assert (edge x <> e); [|lia]. intros Q. apply NL. rewrite <- Q. apply edge_live; auto.
    + intros x K. apply PP, UE; auto.
    + assert (B1 : b2z (liveHb m (2 * e)) = 0) by (unfold liveHb; rewrite DD; reflexivity). assert (B2 : b2z (intHb m (2 * e)) = 0) by (unfold intHb, liveHb; rewrite DD; reflexivity). assert (B3 : b2z (intHb m (2 * e + 1)) = 0) by (unfold intHb, liveHb; rewrite DD'; reflexivity).
      rewrite CS, CI, B1, B2, B3. fold g. clear - C1 C2 C3 C4. unfold e in *. lia.
Qed.
Lemma loop_edges pos edgePt : NoDeadLoops m -> triangular m -> noSelfEdges m -> exists r M W,
  splitAll edgePt (mkLoop m (fun _ => true) (fun _ => true) pos []) = Ok r /\ LoopTo pos edgePt (Z.to_nat (eFill m)) r M W.
Proof.
  intros ND TR NS. set (r0 := mkLoop m _ _ pos []). set (body := fun r i => if okayAt (lM r) EEdge i then splitLoop edgePt r (Z.of_nat i) else Ok r).
  assert (ST := va_st _ V). assert (HE : heFill m = 2 * eFill m) by apply ST. assert (H0 : 0 <= heFill m) by apply ST.
  assert (UZ : forall e, ~ upto m 0 e) by (intros e [[K1 _] K2]; unfold eHe in K1; lia).
  assert (EZ : forall h, liveH m h -> 0 <= edge h) by (intros h [K _]; unfold edge; apply Z.div_pos; lia).
  assert (G : forall n, (n <= Z.to_nat (eFill m))%nat -> exists r M W, foldM body (seq 0 n) r0 = Ok r /\ LoopTo pos edgePt n r M W).
  { induction n as [|n IH]; intros Hn.
    - exists r0, (fun e => e), (fun h => h). split; [reflexivity|]. constructor; cbn [lM lV lE lP lFlip r0]; auto; try tauto; try (intros; exfalso; eapply UZ; eauto; fail).
      + lia.
      + intros v. split; [auto|]. intros [K|(e & K & _)]; [auto|exfalso; apply (UZ e); auto].
      + intros h L K. specialize (EZ h L). lia.
      + intros f [].
      + split; [constructor|intros f []].
      + intros v K1 K2. destruct K1 as [K1 _]. lia.
      + cbn [Z.of_nat]. change (2 * 0) with 0. rewrite !countb_0 by lia. repeat split; lia.
    - destruct IH as (r & M & W & E & SP); [lia|]. destruct (loopTo_step pos edgePt n r M W SP) as (r' & M' & W' & E' & SP'); [lia|].
      exists r', M', W'. split; auto. rewrite seq_S, foldM_app, E. cbn [bind foldM]. cbn [Nat.add]. unfold body at 1. rewrite E'. reflexivity. }
  destruct (G _ (le_n _)) as (r & M & W & E & SP). exists r, M, W. split; auto.
Qed.
End Loop.
