(** C93: Loop subdivision. *)
From Coq Require Import Reals Lra.
From Verif Require Import Base DataModel MeshModel MeshSpec MeshBase MeshOpSpec MeshOrbit MeshExec MeshHistory CollapseSpec CollapseModel CollapseProperties CountProofs FastModel SubdivModel SubdivSpec IntrinsicSpec Subdiv1 Subdiv4 LoopModel LoopSpec Loop1 Loop2 MeshCheck MeshExamples MeshHistoryCheck DelaunayExamples PointProperties FieldProperties GeoModel.
Open Scope Z_scope.

(** loopSubdivide: the vertices, where they are, the halves of the edges and the numbers of elements. That the faces are those of FourWay when no interior vertex has degree two is not proved *)
Theorem C93_loop_partial m pos : Valid m -> NoDeadLoops m -> 0 < heFill m -> triangular m -> noSelfEdges m ->
  exists m' pos' vt md, loopSubdivide m pos = Ok (m', pos') /\ Valid m' /\ NoDeadLoops m' /\ triangular m' /\ Halved m m' vt md /\
    (forall v l, liveV m v -> leavingAre m v l -> loopVertex m pos (pos v) l (pos' (vt v))) /\
    (forall e, liveH m (eHe e) -> ~ ext m (tw (eHe e)) -> loopEdge m pos (eHe e) (pos' (md e))) /\
    (forall e, liveH m (eHe e) -> ext m (tw (eHe e)) -> isMean (fun h => pos (ve m h)) [eHe e; tw (eHe e)] (pos' (md e))) /\
    nVertices m' = nVertices m + nEdges m /\ nEdges m' = 2 * nEdges m + nInterior m /\ nFaces m' = nFaces m + nInterior m /\ nLoops m' = nLoops m.
Proof.
  intros V ND H0 TR NS. destruct (loop_vertex_points m pos V) as (newPos & EV & PV). destruct (edge_points m (loopEdgePoint m pos) (edgeRule m pos) V (fun e L => loop_edge_point m pos e V L)) as (edgePt & EE & PE).
  destruct (loop_split m newPos edgePt V ND H0 TR NS) as (m' & pos' & vt & md & E & V' & ND' & TR' & HV & A1 & A2 & CT).
  exists m', pos', vt, md. split; [|split; [exact V'|split; [exact ND'|split; [exact TR'|split; [exact HV|split; [|split; [|split; [|exact CT]]]]]]]].
  - unfold loopSubdivide. destruct (triangular_ok m V) as (b & Eb & Kb). rewrite Eb. cbn [bind]. rewrite (proj2 Kb) by (intros h L X; apply TR; auto). cbn [guard bind].
    apply bind_Ok_inv in EV as (vs & -> & EV). cbn [bind]. rewrite EV. cbn [bind]. apply bind_Ok_inv in EE as (es & -> & EE). cbn [bind]. rewrite EE. cbn [bind]. exact E.
  - intros v l L SA. rewrite A1 by auto. apply PV; auto.
  - intros e L X q Hq. rewrite A2, PE by auto. unfold edgeRule. unfold ext in X. rewrite (proj2 (Z.leb_gt _ _)) by lia. destruct Hq as [->|[->| ->]]; unfold add3, mul3; cbn [qx qy qz]; lra.
  - intros e L X. rewrite A2, PE by auto. unfold edgeRule. unfold ext in X. rewrite (proj2 (Z.leb_le _ _)) by lia. apply (two_points (fun h => pos (ve m h))). reflexivity.
Qed.
Print Assumptions C93_loop_partial.

Lemma tet_simple : simple tet. Proof. apply simpleb_ok. vm_compute. reflexivity. Qed.
Lemma lone3_simple : simple lone3. Proof. apply simpleb_ok. vm_compute. reflexivity. Qed.
Lemma lone3_tri : triangular lone3. Proof. apply triangularb_ok. vm_compute. reflexivity. Qed.
Lemma pillow_simple : simple pillow. Proof. apply simpleb_ok. vm_compute. reflexivity. Qed.
Lemma pillow_tri3 : triangular pillow. Proof. apply triangularb_ok. vm_compute. reflexivity. Qed.
Example C93_witness : (Valid lone3 /\ NoDeadLoops lone3 /\ 0 < heFill lone3 /\ triangular lone3 /\ noSelfEdges lone3) /\ (Valid tet /\ NoDeadLoops tet /\ 0 < heFill tet /\ triangular tet /\ noSelfEdges tet) /\
  (forall pos, exists m' pos', loopSubdivide tet pos = Ok (m', pos') /\ Valid m' /\ nVertices m' = 10 /\ nEdges m' = 24 /\ nFaces m' = 16 /\ nLoops m' = 0).
Proof.
  assert (A : Valid tet /\ NoDeadLoops tet /\ 0 < heFill tet /\ triangular tet /\ noSelfEdges tet) by (split; [exact tet_valid|]; split; [vm_compute; reflexivity|]; split; [vm_compute; reflexivity|]; split; [exact tet_triangular|apply tet_simple]).
  split; [split; [exact lone3_valid|]; split; [vm_compute; reflexivity|]; split; [vm_compute; reflexivity|]; split; [exact lone3_tri|apply lone3_simple]|]. split; [exact A|].
  intros pos. destruct A as (A1 & A2 & A3 & A4 & A5). destruct (C93_loop_partial tet pos A1 A2 A3 A4 A5) as (m' & pos' & vt & md & E & V' & _ & _ & _ & _ & _ & _ & C1 & C2 & C3 & C4).
  exists m', pos'. split; [exact E|]. split; [exact V'|]. rewrite C1, C2, C3, C4. vm_compute. auto.
Qed.

(** on the tetrahedron the faces are those of FourWay: the specification that C93_degree_two_refuted refutes for degree two is one the program does meet elsewhere *)
Definition meshOf (r : res (mesh * (Z -> V3))) : mesh := match r with Ok (m, _) => m | _ => pillow end.
Definition tetCorner (h : Z) : Z := nth (Z.to_nat h) [12; 1; 18; 3; 24; 5; 30; 7; 36; 9; 42; 11] 0.
Definition fourWayb (g : mesh) : bool :=
  allb (fun h => let k := tetCorner h in
    inH g k && (fa g k <? fFill g) && (nx g (nx g (nx g k)) =? k) && (ve g k =? ve tet h) && (ve g (nx g k) =? 4 + edge h) && allb (fun p => negb (nx tet p =? h) || (ve g (nx g (nx g k)) =? 4 + edge p)) 12 &&
    (fa g (tw (nx g k)) <? fFill g) && (nx g (tw (nx g k)) =? tw (nx g (tetCorner (nx tet h)))) && (tw k =? nx g (nx g (tetCorner (nx tet (tw h)))))) 12.
Definition fourAllb (g : mesh) : bool :=
  allb (fun x => existsb (fun h => inH tet h && (fa tet h <? fFill tet) && ((x =? tetCorner h) || (x =? nx g (tetCorner h)) || (x =? nx g (nx g (tetCorner h))) || (x =? tw (nx g (tetCorner h))))) (zseq 12)) 48.
Example C93_four_way : noDegreeTwo tet /\ forall pos, exists m' pos' vt md corner, loopSubdivide tet pos = Ok (m', pos') /\ FourWay tet m' vt md corner.
Proof.
  split.
  { assert (G : allb (fun h => negb (nx tet (tw (nx tet (tw h))) =? h)) 12 = true) by (vm_compute; reflexivity). rewrite allb_ok in G. intros h L _ _ Q. specialize (G h (proj1 L)). rewrite (proj2 (Z.eqb_eq _ _) Q) in G. discriminate. }
  intros pos. destruct C93_witness as (_ & (A1 & A2 & A3 & A4 & A5) & _). destruct (C93_loop_partial tet pos A1 A2 A3 A4 A5) as (m' & pos' & vt0 & md0 & E & V' & _).
  exists m', pos', (fun v => v), (fun e => 4 + e), tetCorner. split; [exact E|]. assert (M : m' = meshOf (loopSubdivide tet pos)) by (rewrite E; reflexivity). clear vt0 md0 E.
  assert (F1 : fourWayb m' = true) by (rewrite M; vm_compute; reflexivity). assert (F2 : fourAllb m' = true) by (rewrite M; vm_compute; reflexivity).
  assert (F3 : allb (fun v => inV m' v) 10 = true) by (rewrite M; vm_compute; reflexivity). assert (VF : vFill m' = 10) by (rewrite M; vm_compute; reflexivity). assert (HF : heFill m' = 48) by (rewrite M; vm_compute; reflexivity). clear M.
  assert (T1 : allb (fun h => inH tet h) 12 = true) by (vm_compute; reflexivity). assert (T2 : allb (fun v => inV tet v) 4 = true) by (vm_compute; reflexivity).
  assert (T3 : allb (fun h => (0 <=? nx tet h) && (nx tet h <? 12) && (fa tet h <? fFill tet)) 12 = true) by (vm_compute; reflexivity).
  assert (T4 : allb (fun h => allb (fun k => negb (tetCorner h =? tetCorner k) || (h =? k)) 12) 12 = true) by (vm_compute; reflexivity).
  unfold fourWayb in F1. unfold fourAllb in F2. rewrite allb_ok in F1, F2, F3, T1, T2, T3, T4. change (heFill tet) with 12 in *.
  assert (LH : forall h, liveH tet h -> 0 <= h < 12) by (intros h L; exact (proj1 L)). assert (LV : forall v, liveV tet v <-> 0 <= v < 4) by (intros v; split; [intros L; exact (proj1 L)|intros K; apply inV_live; auto]).
  assert (LE : forall e, liveH tet (eHe e) <-> 0 <= e < 6) by (intros e; split; [intros L; apply LH in L; unfold eHe in L; lia|intros K; apply inH_live; apply T1; unfold eHe; lia]).
  assert (NE : forall h, liveH tet h -> ext tet h -> False). { intros h L X. specialize (T3 h (LH h L)). apply andb_true_iff in T3 as [_ K]. apply Z.ltb_lt in K. unfold ext in X. lia. }
  assert (F1' : forall h, 0 <= h < 12 -> let k := tetCorner h in liveH m' k /\ ~ ext m' k /\ nx m' (nx m' (nx m' k)) = k /\ ve m' k = ve tet h /\ ve m' (nx m' k) = 4 + edge h /\
    (forall p, 0 <= p < 12 -> nx tet p = h -> ve m' (nx m' (nx m' k)) = 4 + edge p) /\ ~ ext m' (tw (nx m' k)) /\ nx m' (tw (nx m' k)) = tw (nx m' (tetCorner (nx tet h))) /\ tw k = nx m' (nx m' (tetCorner (nx tet (tw h))))).
  { intros h K k. specialize (F1 h K). cbv zeta in F1. fold k in F1. rewrite !andb_true_iff, allb_ok, !Z.eqb_eq, !Z.ltb_lt in F1. destruct F1 as ((((((((B1 & B2) & B3) & B4) & B5) & B6) & B7) & B8) & B9).
    split; [apply inH_live; auto|]. split; [unfold ext; lia|]. split; [auto|]. split; [auto|]. split; [auto|]. split; [|split; [unfold ext; lia|auto]].
    intros p Kp Ep. specialize (B6 p Kp). rewrite (proj2 (Z.eqb_eq _ _) Ep) in B6. apply Z.eqb_eq in B6. exact B6. }
  clear F1. constructor.
  - intros v. transitivity (0 <= v < 10). { split; [intros L; rewrite <- VF; exact (proj1 L)|intros K; apply inV_live; auto]. }
    split; [intros K; destruct (Z_lt_dec v 4); [left; exists v; split; auto; apply LV; lia|right; exists (v - 4); split; [apply LE; lia|lia]]|intros [(u & K & ->)|(e & K & ->)]; [apply LV in K|apply LE in K]; lia].
  - auto.
  - intros; lia.
  - intros u e K L. apply LV in K. apply LE in L. lia.
  - intros h L _. destruct (F1' h (LH h L)) as (B1 & B2 & B3 & B4 & B5 & B6 & _). cbv zeta. do 5 (split; auto).
  - intros h L _. destruct (F1' h (LH h L)) as (_ & _ & _ & _ & _ & _ & B7 & B8 & _). auto.
  - intros x L _. specialize (F2 x ltac:(rewrite <- HF; exact (proj1 L))). apply existsb_exists in F2 as (h & _ & K). rewrite !andb_true_iff, !orb_true_iff, !Z.eqb_eq, Z.ltb_lt in K. destruct K as ((K1 & K2) & K3).
    exists h. split; [apply inH_live; auto|]. split; [unfold ext; lia|tauto].
  - intros h k L Lk _ _ Q. specialize (T4 h (LH h L)). rewrite allb_ok in T4. specialize (T4 k (LH k Lk)). rewrite (proj2 (Z.eqb_eq _ _) Q) in T4. apply Z.eqb_eq in T4. exact T4.
  - intros h L _ _. apply (F1' h (LH h L)).
  - intros h L _ X. exfalso. apply (NE (tw h)); auto. apply (va_cn _ A1); auto.
Qed.

(** an interior vertex of degree two: one of the flips is refused, since it would join two vertices a second time, and the faces are not those of a subdivision *)
Definition leaving (m : mesh) (v : Z) : list Z := filter (fun h => inH m h && (ve m h =? v)) (zseq (heFill m)).
Theorem C93_degree_two_refuted : exists m, Valid m /\ NoDeadLoops m /\ 0 < heFill m /\ triangular m /\ noSelfEdges m /\ (forall h, liveH m h -> ~ ext m h) /\
  forall pos, exists m' pos', loopSubdivide m pos = Ok (m', pos') /\ Valid m' /\ forall vt md corner, ~ FourWay m m' vt md corner.
Proof.
  assert (A : Valid pillow /\ NoDeadLoops pillow /\ 0 < heFill pillow /\ triangular pillow /\ noSelfEdges pillow) by (split; [exact pillow_valid|]; split; [vm_compute; reflexivity|]; split; [vm_compute; reflexivity|]; split; [exact pillow_tri3|apply pillow_simple]).
  exists pillow. destruct A as (A1 & A2 & A3 & A4 & A5). do 5 (split; [assumption|]).
  assert (CL : forall h, liveH pillow h -> ~ ext pillow h). { intros h L. assert (G : allb (fun h => negb (inH pillow h) || (fa pillow h <? fFill pillow)) (heFill pillow) = true) by (vm_compute; reflexivity). rewrite allb_ok in G. specialize (G h (proj1 L)). rewrite (proj2 (inH_live pillow h) L) in G. cbn [negb orb] in G. apply Z.ltb_lt in G. unfold ext. lia. }
  split; [exact CL|]. intros pos. destruct (C93_loop_partial pillow pos A1 A2 A3 A4 A5) as (m' & pos' & vt0 & md0 & E & V' & _). exists m', pos'. split; [exact E|]. split; [exact V'|].
  assert (M : m' = meshOf (loopSubdivide pillow pos)) by (rewrite E; reflexivity). clear vt0 md0 E.
  intros vt md corner FW.
  assert (MC : allb (fun h => negb (inH m' h) || (fa m' h <? fFill m')) (heFill m') = true) by (rewrite M; vm_compute; reflexivity).
  assert (D3 : allb (fun v => negb (inV m' v) || (v =? 0) || (v =? 1) || (2 <? zlen (leaving m' v))) (vFill m') = true) by (rewrite M; vm_compute; reflexivity).
  clear M. rewrite allb_ok in MC, D3. assert (CN' := va_cn _ V').
  assert (LH : forall v x, In x (leaving m' v) <-> liveH m' x /\ ve m' x = v).
  { intros v x. unfold leaving. rewrite filter_In, andb_true_iff, inH_live, Z.eqb_eq. split; [tauto|]. intros [L K]. split; auto. apply zseq_In. apply L. }
  assert (ND : forall v, NoDup (leaving m' v)) by (intros v; apply NoDup_filter, zseq_NoDup).
  assert (LP : forall u, liveV pillow u -> exists h1 h2, forall h, liveH pillow h -> ve pillow h = u -> h = h1 \/ h = h2).
  { intros u L. destruct (vertHalfedges_ok pillow pillow_valid u L) as (l & El & _ & _ & _ & Il). assert (U : u = 0 \/ u = 1 \/ u = 2) by (destruct L as [L _]; change (vFill pillow) with 3 in L; lia).
    destruct U as [->|[->| ->]]; vm_compute in El; injection El as <-; do 2 eexists; intros h Lh Vh; assert (I := proj2 (Il h) (conj Lh Vh)); destruct I as [<-|[<-|[]]]; [left|right|left|right|left|right]; reflexivity. }
  assert (DEG : forall u, liveV pillow u -> zlen (leaving m' (vt u)) <= 2).
  { intros u L. destruct (LP u L) as (h1 & h2 & H12). assert (IC : incl (leaving m' (vt u)) [corner h1; corner h2]).
    { intros x I. apply LH in I as [Lx Vx]. assert (Nx : ~ ext m' x). { specialize (MC x (proj1 Lx)). rewrite (proj2 (inH_live m' x) Lx) in MC. cbn [negb orb] in MC. apply Z.ltb_lt in MC. unfold ext. lia. }
      destruct (fw_all _ _ _ _ _ FW x Lx Nx) as (h & Lh & Nh & K). destruct (fw_corner _ _ _ _ _ FW h Lh Nh) as (B1 & B2 & B3 & B4 & B5 & B6).
      assert (TR := pillow_tri3 h Lh Nh). destruct TR as (_ & T & _). pose proof (va_cn _ pillow_valid) as CP. assert (L1 : liveH pillow (nx pillow h)) by (apply CP; auto). assert (L2 : liveH pillow (nx pillow (nx pillow h))) by (apply CP; auto).
      specialize (B6 _ L2 T). assert (KD : forall k, liveH pillow k -> vt u <> md (edge k)) by (intros k Lk; apply (fw_kind _ _ _ _ _ FW); auto; apply edge_live; [exact pillow_valid|auto]).
      destruct K as [->|[->|[->| ->]]].
      - assert (Q : ve pillow h = u) by (apply (fw_vt _ _ _ _ _ FW); auto; [apply (cn_ve _ CP); auto|congruence]). destruct (H12 h Lh Q) as [->| ->]; [left|right; left]; auto.
      - exfalso. apply (KD h Lh). congruence.
      - exfalso. apply (KD _ L2). congruence.
      - exfalso. apply (KD _ L2). rewrite <- Vx, <- B6. symmetry. apply (cn_vnx _ CN'). apply CN'; auto. }
    pose proof (NoDup_incl_length (ND (vt u)) IC) as Q. cbn [length] in Q. unfold zlen. lia. }
  assert (ON : forall u, liveV pillow u -> vt u = 0 \/ vt u = 1).
  { intros u L. assert (Lv : liveV m' (vt u)) by (apply (fw_vert _ _ _ _ _ FW); left; eauto). specialize (D3 (vt u) (proj1 Lv)). rewrite (proj2 (inV_live m' (vt u)) Lv) in D3. cbn [negb orb] in D3. specialize (DEG u L).
    destruct (Z.eqb_spec (vt u) 0); [auto|]. destruct (Z.eqb_spec (vt u) 1); [auto|]. cbn [orb] in D3. apply Z.ltb_lt in D3. lia. }
  assert (L0 : liveV pillow 0) by (apply inV_live; vm_compute; reflexivity). assert (L1 : liveV pillow 1) by (apply inV_live; vm_compute; reflexivity). assert (L2 : liveV pillow 2) by (apply inV_live; vm_compute; reflexivity).
  assert (I01 : vt 0 <> vt 1) by (intros K; apply (fw_vt _ _ _ _ _ FW) in K; auto; lia). assert (I02 : vt 0 <> vt 2) by (intros K; apply (fw_vt _ _ _ _ _ FW) in K; auto; lia). assert (I12 : vt 1 <> vt 2) by (intros K; apply (fw_vt _ _ _ _ _ FW) in K; auto; lia).
  pose proof (ON 0 L0). pose proof (ON 1 L1). pose proof (ON 2 L2). lia.
Qed.
Print Assumptions C93_degree_two_refuted.

(** a vertex on the boundary is moved by the rule for interior vertices, not to 3/4 of itself and 1/8 of each neighbour along the boundary *)
Theorem C93_boundary_refuted : exists m pos m' pos' vt md v h k, Valid m /\ NoDeadLoops m /\ 0 < heFill m /\ triangular m /\ noSelfEdges m /\ loopSubdivide m pos = Ok (m', pos') /\ Halved m m' vt md /\
  (* v is on the boundary, between the vertices at the other ends of h and k *)
  liveV m v /\ liveH m h /\ liveH m k /\ ve m h = v /\ ve m k = v /\ ext m h /\ ext m (tw k) /\ h <> k /\
  (qx (pos' (vt v)) <> 3 / 4 * qx (pos v) + 1 / 8 * (qx (pos (ve m (tw h))) + qx (pos (ve m (tw k)))))%R.
Proof.
  assert (A2 : NoDeadLoops lone3) by (vm_compute; reflexivity). assert (A3 : 0 < heFill lone3) by (vm_compute; reflexivity).
  set (pos := fun v : Z => if v =? 0 then mk3 1 0 0 else mk3 0 0 0). destruct (C93_loop_partial lone3 pos lone3_valid A2 A3 lone3_tri (proj1 lone3_simple)) as (m' & pos' & vt & md & E & V' & _ & _ & HV & PV & _).
  assert (L0 : liveV lone3 0) by (apply inV_live; vm_compute; reflexivity).
  destruct (vertHalfedges_ok lone3 lone3_valid 0 L0) as (l & El & _ & _ & Nl & Il). 
  exists lone3, pos, m', pos', vt, md, 0, 5, 0. split; [exact lone3_valid|]. split; [exact A2|]. split; [exact A3|]. split; [exact lone3_tri|]. split; [apply lone3_simple|]. split; [exact E|]. split; [exact HV|].
  split; [exact L0|]. split; [apply inH_live; vm_compute; reflexivity|]. split; [apply inH_live; vm_compute; reflexivity|]. split; [vm_compute; reflexivity|]. split; [vm_compute; reflexivity|]. split; [unfold ext; vm_compute; discriminate|]. split; [unfold ext; vm_compute; discriminate|]. split; [lia|].
  assert (K := PV 0 l L0 (conj Nl Il) qx (or_introl eq_refl)). vm_compute in El. injection El as <-. cbv zeta in K. unfold Rsum, loopWeight in K. cbn [length fold_right Nat.eqb] in K.
  unfold pos in K |- *. 
  change (ve lone3 (tw 5)) with 2. change (ve lone3 (tw 0)) with 1.
  assert (W : forall h, In h [0; 5] -> (ve lone3 (tw h) =? 0) = false) by (intros h [<-|[<-|[]]]; vm_compute; reflexivity).
  rewrite !W in K by (cbn; auto). cbn [Z.eqb qx] in K |- *. rewrite K. change (INR 2) with (1 + 1)%R. lra.
Qed.
Print Assumptions C93_boundary_refuted.
