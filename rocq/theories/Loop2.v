(** Loop subdivision: the flips, and the positions. *)
From Coq Require Import Reals Lra Permutation.
From Verif Require Import Base DataModel MeshModel MeshModel2 MeshSpec MeshBase MeshOpSpec MeshOrbit MeshExec MeshThms MeshFlip MeshSplit MeshEvents MeshCompressModel MeshCompress MeshDataModel MeshHistorySpec MeshHistory CollapseModel CollapseSpec CountModel CountProofs
  IntrinsicModel IntrinsicSpec Intrinsic1 Intrinsic5 FastModel SubdivModel SubdivSpec Subdiv1 Subdiv4 DataProofs GeoModel LoopModel LoopSpec Loop1.
Open Scope Z_scope.

Definition noMono (g : mesh) : Prop := forall h, liveH g h -> nx g h <> h.
(** no edge joins two vertices below b *)
Definition apart (b : Z) (g : mesh) : Prop := forall x, liveH g x -> ve g x < b -> b <= ve g (tw x).
Record Flipped (g g' : mesh) (es : list Z) : Prop := {
  fl_v : Valid g'; fl_nd : NoDeadLoops g'; fl_tr : triangular g'; fl_nm : noMono g'; fl_c : counts g' = counts g; fl_se : same_elements g g'; fl_h : heFill g' = heFill g; fl_vf : vFill g' = vFill g;
  fl_ve : forall h, ~ In (edge h) es -> ve g' h = ve g h }.
Lemma se_refl g : same_elements g g.
Proof. split; [|split]; intros; apply iff_refl. Qed.
Lemma se_trans g k l : same_elements g k -> same_elements k l -> same_elements g l.
Proof. intros (A1 & A2 & A3) (B1 & B2 & B3). split; [|split]; intros x; [rewrite B1; apply A1|rewrite B2; apply A2|rewrite B3; apply A3]. Qed.
Lemma flip_loop g f : Valid g -> NoDeadLoops g -> triangular g -> noMono g -> liveH g (eHe f) -> exists g' ok, flip g f true = Ok (g', ok) /\ Flipped g g' [f] /\
  forall b, apart b g -> ve g (eHe f) < b \/ ve g (tw (eHe f)) < b -> apart b g'.
Proof.
  intros V ND TR NM L. pose proof (va_cn _ V) as CN. set (a := eHe f) in *. set (b := tw a). assert (Lb : liveH g b) by (apply CN; auto).
  destruct (flip_spec g f true V L (NM _ L) (NM _ Lb)) as (g' & ok & E & V' & OK & K1 & K2). exists g', ok. split; [exact E|]. pose proof (shape_flip _ _ _ _ _ E) as Sh.
  destruct ok; [|rewrite (K1 eq_refl); split; [constructor; auto; apply se_refl|auto]].
  destruct (proj1 OK eq_refl) as [(_ & (_ & Ta & _) & (_ & Tb & _) & D1 & D2) _]. fold a b in Ta, Tb, D1, D2.
  destruct (K2 eq_refl) as (C & SE & Wa & Wb & VO & XO & A1 & A2 & A3 & B1 & B2 & B3 & (La' & (Xa & Ta' & Na') & (Xb & Tb' & Nb') & _ & _)). fold a in VO, XO, A1, A2, A3, B1, B2, B3, La', Xa, Ta', Na', Xb, Tb', Nb'. fold b in VO, XO, A1, A2, A3, B1, B2, B3, Xb, Tb', Nb'. clear K1 K2 OK.
  assert (CN' := va_cn _ V'). assert (Lb' : liveH g' b) by (apply SE; auto). assert (FF : fFill g' = fFill g) by (unfold shape, fills in Sh; injection Sh; auto).
  assert (IN6 : forall h, liveH g h -> fa g h = fa g a \/ fa g h = fa g b -> inTriangle g' h).
  { assert (Qa := cyc3 g' a (nx g' a) (nx g' (nx g' a)) CN' La' eq_refl eq_refl Ta' (not_eq_sym Na') Xa). assert (Qb := cyc3 g' b (nx g' b) (nx g' (nx g' b)) CN' Lb' eq_refl eq_refl Tb' (not_eq_sym Nb') Xb).
    rewrite A1, <- A1, A2 in Qa. rewrite A1 in Qa. rewrite B2, B1 in Qb. destruct Qa as (Qa1 & Qa2 & Qa3). destruct Qb as (Qb1 & Qb2 & Qb3).
    intros h Lh [K|K]; [destruct (tri_members g a h CN L Ta Lh K) as [->|[->| ->]]|destruct (tri_members g b h CN Lb Tb Lh K) as [->|[->| ->]]]; auto. }
  assert (CA : forall t, liveH g t -> nx g (nx g (nx g t)) = t -> forall c, apart c g -> ve g t < c \/ ve g (tw t) < c -> c <= ve g (nx g (nx g t))).
  { intros t Lt T3 c AP K. assert (L1 : liveH g (nx g t)) by (apply CN; auto). assert (L2 : liveH g (nx g (nx g t))) by (apply CN; auto).
    assert (W1 : ve g (nx g t) = ve g (tw t)) by (apply (cn_vnx _ CN); auto). assert (W2 : ve g (nx g (nx g t)) = ve g (tw (nx g t))) by (apply (cn_vnx _ CN); auto).
    assert (W3 := cn_vnx _ CN _ L2). rewrite T3 in W3.
    destruct (Z_lt_dec (ve g (nx g (nx g t))) c) as [Q|Q]; [exfalso|lia]. pose proof (AP _ L2 Q). destruct K as [K|K]; [lia|]. rewrite <- W1 in K. pose proof (AP _ L1 K). lia. }
  split.
  2:{ intros c AP K x Lx Vx. apply SE in Lx. assert (Pa := CA a L Ta c AP K). assert (Pb : c <= ve g (nx g (nx g b))).
    { apply (CA b Lb Tb c AP). unfold b in *. rewrite tw_tw. tauto. }
    fold a in Wa, Wb. fold b in Wa, Wb. destruct (Z.eq_dec x a) as [->|Na]; [lia|]. destruct (Z.eq_dec x b) as [->|Nb]; [lia|]. rewrite (VO x) in Vx by auto.
    rewrite VO; [apply AP; auto| |]; intros Q; [apply Nb; unfold b; rewrite <- Q, tw_tw; auto|apply Na; apply tw_inj; exact Q]. }
  constructor; auto.
  - unfold counts in C. injection C as C1 C2 C3 C4 C5 C6. eapply noDead_shape; eauto.
  - intros h Lh Eh. apply SE in Lh. destruct (Z.eq_dec (fa g h) (fa g a)) as [Q|Qa]; [auto|]. destruct (Z.eq_dec (fa g h) (fa g b)) as [Q|Qb]; [auto|].
    destruct (XO h Lh Qa Qb) as [X1 X2]. unfold ext in Eh. rewrite X2, FF in Eh. destruct (TR h Lh Eh) as (_ & T & N). assert (L1 : liveH g (nx g h)) by (apply CN; auto). assert (L2 : liveH g (nx g (nx g h))) by (apply CN; auto).
    assert (F1 : fa g (nx g h) = fa g h) by (apply (cn_fnx _ CN); auto). assert (F2 : fa g (nx g (nx g h)) = fa g h) by (rewrite (cn_fnx _ CN); auto).
    assert (Y1 : nx g' (nx g h) = nx g (nx g h)) by (apply XO; congruence). assert (Y2 : nx g' (nx g (nx g h)) = nx g (nx g (nx g h))) by (apply XO; congruence).
    split; [unfold ext; rewrite X2, FF; auto|]. rewrite X1, Y1, Y2. auto.
  - intros h Lh. apply SE in Lh. destruct (Z.eq_dec (fa g h) (fa g a)) as [Q|Qa]; [destruct (IN6 h Lh) as (_ & _ & K); auto|]. destruct (Z.eq_dec (fa g h) (fa g b)) as [Q|Qb]; [destruct (IN6 h Lh) as (_ & _ & K); auto|].
    destruct (XO h Lh Qa Qb) as [X1 _]. rewrite X1. auto.
  - unfold shape, fills in Sh. injection Sh. auto.
  - unfold shape, fills in Sh. injection Sh. auto.
  - intros h K. apply VO; intros ->; apply K; left; unfold b, a; rewrite ?tw_edge, edge_eHe; auto.
Qed.
Lemma flips_ok es : forall g, Valid g -> NoDeadLoops g -> triangular g -> noMono g -> (forall f, In f es -> liveH g (eHe f)) -> exists g', flipAll g es = Ok g' /\ Flipped g g' es /\
  forall b, apart b g -> NoDup es -> (forall f, In f es -> ve g (eHe f) < b \/ ve g (tw (eHe f)) < b) -> apart b g'.
Proof.
  induction es as [|f es IH]; intros g V ND TR NM L; unfold flipAll; cbn [foldM].
  - exists g. split; auto. split; auto. constructor; auto. apply se_refl.
  - destruct (flip_loop g f V ND TR NM) as (g1 & ok & E & [A1 A2 A3 A4 A5 A6 A7 A8 A9] & AP1); [apply L; left; auto|]. rewrite E. cbn [bind]. destruct (IH g1 A1 A2 A3 A4) as (g' & E' & [B1 B2 B3 B4 B5 B6 B7 B8 B9] & AP2).
    + intros k K. apply A6, L. right; auto.
    + exists g'. split; [exact E'|]. split; [|intros b AP N K; apply NoDup_cons_iff in N as [N1 N2]; apply AP2; [apply AP1; auto; apply K; left; auto|auto|]; intros k Ik; rewrite !A9 by (rewrite ?tw_edge, edge_eHe; intros [Q|[]]; subst; auto); apply K; right; auto].
      constructor; auto; try congruence.
      * eapply se_trans; eauto.
      * intros h K. rewrite B9 by (intros Q; apply K; right; auto). apply A9. intros [Q|[]]. apply K. left; auto.
Qed.
Lemma noSelf_noMono g : Valid g -> noSelfEdges g -> noMono g.
Proof. intros V NS h L K. apply (NS h L). rewrite <- (cn_vnx _ (va_cn _ V)) by auto. congruence. Qed.

Lemma loop_split m pos edgePt : Valid m -> NoDeadLoops m -> 0 < heFill m -> triangular m -> noSelfEdges m ->
  exists m' pos' vt md, loopSplit m pos edgePt = Ok (m', pos') /\ Valid m' /\ NoDeadLoops m' /\ triangular m' /\ Halved m m' vt md /\
    (forall v, liveV m v -> pos' (vt v) = pos v) /\ (forall e, liveH m (eHe e) -> pos' (md e) = edgePt e) /\
    nVertices m' = nVertices m + nEdges m /\ nEdges m' = 2 * nEdges m + nInterior m /\ nFaces m' = nFaces m + nInterior m /\ nLoops m' = nLoops m.
Proof.
  intros V ND H0 TR NS. assert (ST := va_st _ V). assert (HE : heFill m = 2 * eFill m) by apply ST. pose proof (va_cn _ V) as CN.
  destruct (loop_edges m V pos edgePt ND TR NS) as (r & M & W & E1 & [VG NDG TRG NSG (FV & FH) _ _ _ LV MB MI WW _ LF (LN & LO2) _ OLD PV PP (C1 & C2 & C3 & C4)]). set (g := lM r) in *.
  assert (UP : forall e, upto m (Z.to_nat (eFill m)) e <-> liveH m (eHe e)) by (intros e; unfold upto; split; [tauto|]; intros L; split; auto; destruct L as [L _]; unfold eHe in L; lia).
  assert (EB : forall h, liveH m h -> edge h < Z.of_nat (Z.to_nat (eFill m))). { intros h L. pose proof (proj2 (UP _) (edge_live m V h L)) as [_ K]. exact K. }
  rewrite Z2Nat.id in C1, C3, C4 by lia. rewrite <- (ct_e _ (va_ct _ V)) in C1, C3. rewrite <- HE, <- (ct_int _ (va_ct _ V)) in C3, C4.
  destruct (flips_ok (lFlip r) g VG NDG TRG (noSelf_noMono g VG NSG)) as (k & E2 & [VK NDK TRK _ CK SE HK VFK VK'] & APK); [intros f I; apply LF; auto|]. unfold counts in CK. injection CK as K1 K2 K3 K4 K5 K6.
  assert (LVm : forall u, liveV m u -> u < vFill m) by (intros u K; apply K).
  assert (AP : apart (vFill m) k).
  { apply APK; auto. intros x Lx Vx. destruct (Z_lt_dec (ve g (tw x)) (vFill m)) as [Q|Q]; [exfalso|lia]. destruct (OLD x Lx Vx Q) as [Lm Q2]. specialize (EB x Lm). lia. }
  assert (HV : Halved m k (fun v => v) M).
  { constructor.
    - intros v. rewrite (proj1 (proj2 SE)), LV. split.
      + intros [L|(e & L & ->)]; [left; exists v; split; [exact L|reflexivity]|right; exists e; split; [apply (proj1 (UP e)); exact L|reflexivity]].
      + intros [(u & L & ->)|(e & L & ->)]; [left; exact L|right; exists e; split; [apply (proj2 (UP e)); exact L|reflexivity]].
    - auto.
    - intros e f Le Lf. apply MI; apply UP; auto.
    - intros u e Lu Le K. specialize (LVm u Lu). pose proof (MB e (proj2 (UP e) Le)). lia.
    - intros h L. destruct (WW h L (EB h L)) as (W1 & W2 & W3 & _). assert (N : ~ In (edge (W h)) (lFlip r)) by (intros I; destruct (LF _ I) as (_ & _ & Q); apply (Q h L (EB h L)); auto).
      exists (W h). split; [apply SE; auto|]. rewrite !VK' by (rewrite ?tw_edge; auto). auto.
    - intros x u w Lx Lu Lw E E'. apply LVm in Lu. apply LVm in Lw. pose proof (AP x Lx). lia. }
  assert (PVk : forall v, liveV m v -> lP r v = pos v) by (intros v L; apply PV, LVm; auto). assert (PEk : forall e, liveH m (eHe e) -> lP r (M e) = edgePt e) by (intros e L; apply PP, UP; auto).
  unfold loopSplit. rewrite E1. cbn [bind]. fold g. rewrite E2. cbn [bind]. destruct (compressed k) eqn:CO.
  - rewrite compress_compressed by auto. cbn [bind]. exists k, (lP r), (fun v => v), M. split; [unfold afterCompress, issued; rewrite Nat.sub_diag; reflexivity|]. do 6 (split; [auto|]). repeat split; lia.
  - destruct (compress_spec k VK) as (m' & E3 & V' & CP & _ & CT & RN & ph & pe & pv & pf & pl & CB & _ & _ & _ & _ & _ & _ & _ & GV & _); [lia|auto|]. rewrite E3. cbn [bind].
    assert (AC : afterCompress k m' (lP r) = fun v => lP r (getZ pv v)). { unfold afterCompress, issued. rewrite CB. cbn [length]. replace (Datatypes.S (Datatypes.S (Datatypes.S (Datatypes.S (Datatypes.S (length (cblog k)))))) - length (cblog k))%nat with 5%nat by lia. reflexivity. }
    rewrite AC. injection CT as T1 T2 T3 T4 T5 T6. pose proof (va_cn _ VK) as CK'.
    destruct (newIndex_monotone k) as (MH & MV & _).
    assert (IH : forall a b, liveH k a -> liveH k b -> newH k a = newH k b -> a = b) by (intros a b La Lb K; destruct (Z.lt_trichotomy a b) as [H|[H|H]]; auto; apply MH in H; auto; lia).
    assert (IV : forall a b, liveV k a -> liveV k b -> newV k a = newV k b -> a = b) by (intros a b La Lb K; destruct (Z.lt_trichotomy a b) as [H|[H|H]]; auto; apply MV in H; auto; lia).
    destruct HV as [H1 H2 H3 H4 H5 H6]. assert (LT : forall u, liveV m u -> liveV k u) by (intros u L; apply H1; eauto). assert (LM : forall e, liveH m (eHe e) -> liveV k (M e)) by (intros e L; apply H1; eauto).
    exists m', (fun v => lP r (getZ pv v)), (fun v => newV k v), (fun e => newV k (M e)). split; [reflexivity|]. split; [exact V'|]. split; [destruct (cp_f _ CP) as (_ & K & _); exact K|]. split; [|split; [|split; [|split; [|repeat split; lia]]]].
    + intros x Lx Ex. destruct (rn_hs _ _ RN x Lx) as (y & Ly & <-).
      assert (EX : ext m' (newH k y) <-> ext k y). { pose proof (rn_side _ _ RN y Ly) as K. unfold side, newSide, ext in *. destruct (Z.leb_spec (fFill k) (fa k y)), (Z.leb_spec (fFill m') (fa m' (newH k y))); try discriminate K; split; lia. }
      rewrite EX in Ex. destruct (TRK y Ly Ex) as (_ & T & N). split; [rewrite EX; auto|]. assert (L1 : liveH k (nx k y)) by (apply CK'; auto). assert (L2 : liveH k (nx k (nx k y))) by (apply CK'; auto).
      rewrite !(rn_nx _ _ RN) by auto. split; [congruence|]. intros K. apply IH in K; auto.
    + constructor.
      * intros v. split.
        -- intros L. destruct (rn_vs _ _ RN v L) as (w & Lw & <-). apply H1 in Lw. destruct Lw as [(u & L' & ->)|(e & L' & ->)]; eauto.
        -- intros [(u & L & ->)|(e & L & ->)]; apply (rn_v _ _ RN); auto.
      * intros u w Lu Lw K. apply IV; auto.
      * intros e f Le Lf K. apply H3; auto.
      * intros u e Lu Le K. apply (H4 u e Lu Le). apply IV; auto.
      * intros h L. destruct (H5 h L) as (x & Lx & X1 & X2). exists (newH k x). split; [apply (rn_h _ _ RN); auto|]. assert (Lt : liveH k (tw x)) by (apply CK'; auto). rewrite (rn_tw _ _ RN) by auto. rewrite !(rn_ve _ _ RN) by auto. rewrite X1, X2. auto.
      * intros x u w Lx Lu Lw E E'. destruct (rn_hs _ _ RN x Lx) as (y & Ly & <-). assert (Lt : liveH k (tw y)) by (apply CK'; auto). rewrite (rn_tw _ _ RN) in E' by auto. rewrite (rn_ve _ _ RN) in E, E' by auto. apply (H6 y u w Ly Lu Lw); apply IV; auto; apply (cn_ve _ CK'); auto.
    + intros v L. rewrite GV by auto. auto.
    + intros e L. rewrite GV by auto. auto.
Qed.

(** ** positions *)
Lemma fold_mul (p : Z -> V3) (u : R) l s : fold_left (fun s w => add3 s (mul3 (p w) u)) l s = mk3 (qx s + u * Rsum (fun h => qx (p h)) l)%R (qy s + u * Rsum (fun h => qy (p h)) l)%R (qz s + u * Rsum (fun h => qz (p h)) l)%R.
Proof.
  revert s. induction l as [|h l IH]; intros s; cbn [fold_left].
  - rewrite !Rsum_nil. destruct s as [a b c]; cbn [qx qy qz]. f_equal; lra.
  - rewrite IH. unfold add3, mul3. cbn [qx qy qz]. rewrite !Rsum_cons. f_equal; ring.
Qed.
Lemma Rsum_map (f : Z -> Z) (k : Z -> R) l : Rsum k (map f l) = Rsum (fun h => k (f h)) l.
Proof. induction l as [|h l IH]; auto. cbn [map]. rewrite !Rsum_cons, IH. auto. Qed.
Lemma mapM_ok {A B} (f : A -> res B) (g : A -> B) l : (forall x, In x l -> f x = Ok (g x)) -> mapM f l = Ok (map g l).
Proof. induction l as [|a l IH]; intros H; cbn [mapM map]; auto. rewrite H by (left; auto). cbn [bind]. rewrite IH by (intros; apply H; right; auto). reflexivity. Qed.
Lemma loop_vertex_points m pos : Valid m -> exists newPos, (let* vs := elements m EVertex in tabulate vs (loopVertexPoint m pos) (fun _ => zero)) = Ok newPos /\
  forall v l, liveV m v -> leavingAre m v l -> loopVertex m pos (pos v) l (newPos v).
Proof.
  intros V. pose proof (va_cn _ V) as CN. destruct (iterate_mesh m EVertex V) as (vs & E & _ & ND & _ & IN). rewrite E. cbn [bind].
  assert (FP : forall i, In i vs -> exists x, loopVertexPoint m pos (Z.of_nat i) = Ok x /\ forall l, leavingAre m (Z.of_nat i) l -> loopVertex m pos (pos (Z.of_nat i)) l x).
  { intros i I. apply IN in I. cbn [liveE] in I. destruct (vertHalfedges_ok m V _ I) as (hs & Rh & NE & _ & NDh & MEM). unfold loopVertexPoint, adjVertices. rewrite Rh. cbn [bind].
    rewrite (mapM_ok _ (fun h => ve m (tw h))) by (intros h K; apply tip_ok; auto; apply MEM; auto). cbn [bind].
    eexists. split; [reflexivity|]. intros l [Nl Il] q Hq. cbv zeta. assert (LL : length l = length hs) by (apply Permutation_length, NoDup_Permutation; auto; intros h; rewrite MEM, Il; tauto).
    assert (DZ : IZR (zlen hs) = INR (length hs)) by (unfold zlen; rewrite <- INR_IZR_INZ; auto).
    assert (SL : forall k : Z -> R, Rsum k l = Rsum k hs) by (intros k; apply Rsum_set; auto; intros h; rewrite MEM, Il; tauto).
    assert (WT : (if zlen hs =? 3 then (3 / 16)%R else (3 / (8 * IZR (zlen hs)))%R) = loopWeight (length hs)).
    { unfold loopWeight. rewrite DZ. unfold zlen. destruct (Nat.eqb_spec (length hs) 3) as [->|K]; [reflexivity|]. rewrite (proj2 (Z.eqb_neq _ _)) by lia. reflexivity. }
    rewrite WT, SL, LL, DZ. rewrite fold_mul, !Rsum_map. destruct Hq as [->|[->| ->]]; unfold mul3; cbn [qx qy qz]; ring. }
  destruct (tabulate_ok vs (loopVertexPoint m pos) (fun z => match loopVertexPoint m pos z with Ok x => x | _ => zero end) (fun _ => zero) ND) as (d & R & A & B).
  - intros i I. destruct (FP i I) as (x & -> & _). reflexivity.
  - exists d. split; auto. intros v l L SA. assert (K : v = Z.of_nat (Z.to_nat v)) by (destruct L as [L _]; lia). assert (I : In (Z.to_nat v) vs) by (apply IN; cbn [liveE]; rewrite <- K; auto). destruct (FP _ I) as (x & Ex & Hx). rewrite K, (A _ I), Ex. apply Hx. rewrite <- K. auto.
Qed.
Definition edgeRule (m : mesh) (pos : Z -> V3) (e : Z) : V3 :=
  let a := eHe e in let b := tw a in
  if fFill m <=? fa m b then div3 (add3 (pos (ve m a)) (pos (ve m b))) 2%R else add3 (mul3 (add3 (pos (ve m a)) (pos (ve m b))) (3 / 8)%R) (mul3 (add3 (pos (ve m (nx m (nx m a)))) (pos (ve m (nx m (nx m b))))) (1 / 8)%R).
Lemma loop_edge_point m pos e : Valid m -> liveH m (eHe e) -> loopEdgePoint m pos e = Ok (edgeRule m pos e).
Proof.
  intros V L. pose proof (va_cn _ V) as CN. set (a := eHe e) in *. assert (Lb : liveH m (tw a)) by (apply CN; auto). assert (L1 : liveH m (nx m a)) by (apply CN; auto). assert (L2 : liveH m (nx m (nx m a))) by (apply CN; auto).
  assert (L3 : liveH m (nx m (tw a))) by (apply CN; auto). assert (L4 : liveH m (nx m (nx m (tw a)))) by (apply CN; auto).
  unfold loopEdgePoint. rewrite eIsBoundary_ok by auto. cbn [bind]. fold a. rewrite (vOf _ _ V) by auto. cbn [bind]. rewrite (next_live m V) by auto. cbn [bind]. rewrite (vOf _ _ V) by auto. cbn [bind]. rewrite (cn_vnx _ CN) by auto.
  unfold edgeRule. fold a. destruct (fFill m <=? fa m (tw a)); [reflexivity|].
  rewrite (next_live m V) by auto. cbn [bind]. rewrite (vOf _ _ V) by auto. cbn [bind]. rewrite (next_live m V) by auto. cbn [bind]. rewrite (next_live m V) by auto. cbn [bind]. rewrite (vOf _ _ V) by auto. reflexivity.
Qed.
