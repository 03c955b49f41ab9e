(** Splitting every edge. *)
From Coq Require Import Reals.
From Verif Require Import Base DataModel MeshModel MeshSpec MeshBase MeshOpSpec MeshOrbit MeshThms MeshDataModel MeshHistory MeshExec GeoModel FastModel SubdivModel DataProofs.
Open Scope Z_scope.

(** g is m with the edges in done split: halfedge h has become F h followed by S h, which meet at vertex M (edge h) *)
Record Sided (m : mesh) (done : Z -> Prop) (g : mesh) (F S M : Z -> Z) : Prop := {
  sd_v : Valid g; sd_nd : NoDeadLoops g;
  sd_fill : fFill g = fFill m /\ fCap g = fCap m /\ bFill g = bFill m /\ vFill m <= vFill g /\ heFill m <= heFill g;
  sd_fl : forall f, liveFL g f <-> liveFL m f;
  sd_live : forall x, liveH g x <-> exists h, liveH m h /\ (x = F h \/ x = S h);
  sd_old : forall h, liveH m h -> (F h = h \/ heFill m <= F h) /\ (S h = h \/ heFill m <= S h);
  sd_done : forall h, liveH m h -> done (edge h) -> ve g (F h) = ve m h /\ ve g (S h) = M (edge h) /\ nx g (F h) = S h /\ nx g (S h) = F (nx m h) /\ tw (F h) = S (tw h) /\ vFill m <= M (edge h) < vFill g;
  sd_todo : forall h, liveH m h -> ~ done (edge h) -> F h = h /\ S h = h /\ ve g h = ve m h /\ nx g h = F (nx m h);
  sd_fa : forall h, liveH m h -> fa g (F h) = fa m h /\ fa g (S h) = fa m h;
  sd_inj : forall h k, liveH m h -> liveH m k -> (F h = F k -> h = k) /\ (S h = S k -> h = k) }.

Lemma vOf g h : Valid g -> liveH g h -> vertexOf g h = Ok (ve g h).
Proof. intros V L. apply vertexOf_ok. apply (liveH_bnd g V) in L. tauto. Qed.
Lemma fOf g h : Valid g -> liveH g h -> faceOf g h = Ok (fa g h).
Proof. intros V L. apply faceOf_ok. apply (liveH_bnd g V) in L. tauto. Qed.

Section Split.
Context (m : mesh) (V : Valid m) (D1 : forall e, liveH m (eHe e) -> nx m (tw (eHe e)) <> eHe e).
Let CN := va_cn _ V.
Lemma sided_start : NoDeadLoops m -> Sided m (fun _ => False) m (fun h => h) (fun h => h) (fun e => e).
Proof.
  intros ND. constructor; auto; try tauto.
  - repeat split; lia.
  - intros x. split; [intros L; exists x; auto|intros (h & L & [->| ->]); auto].
Qed.
Lemma edge_two h e : edge h = e -> h = eHe e \/ h = tw (eHe e).
Proof. intros <-. destruct (edge_eq (eHe (edge h)) h) as [H _]. destruct H as [H|H]; [apply edge_eHe|auto|]. right. rewrite H, tw_tw. reflexivity. Qed.
Lemma sided_step done g F S M e : Sided m done g F S M -> liveH m (eHe e) -> ~ done e ->
  exists g' M' F' S', insertVertexAlongEdge g e = Ok (g', eHe e) /\ Sided m (fun x => done x \/ x = e) g' F' S' M' /\
    ve g' (eHe e) = vFill g /\ nx g' (tw (eHe e)) = heFill g + 1 /\ tw (heFill g + 1) = heFill g /\ ve g' (tw (eHe e)) = ve m (tw (eHe e)) /\ ve g' (heFill g) = ve m (eHe e) /\
    M' e = vFill g /\ (forall x, x <> e -> M' x = M x) /\ vFill g' = vFill g + 1 /\ heFill g <= heFill g' /\
    nVertices g' = nVertices g + 1 /\ nEdges g' = nEdges g + 1 /\ nFaces g' = nFaces g /\ nLoops g' = nLoops g /\ liveH g' (eHe e).
Proof.
  intros SD La Nd. destruct SD as [VG NDG FI FL LV OLD DN TD FA IJ]. destruct FI as (Q1 & Q2 & Q3 & Q4 & Q5). set (a := eHe e) in *. set (b := tw a).
  assert (Lb : liveH m b) by (apply CN; auto). assert (Ea : edge a = e) by apply edge_eHe. assert (Eb : edge b = e) by (unfold b; rewrite tw_edge; auto).
  assert (AB : a <> b) by (unfold b; intros K; symmetry in K; apply tw_neq in K; auto).
  destruct (TD a La) as (Fa & Sa & Va & Na); [rewrite Ea; auto|]. destruct (TD b Lb) as (Fb & Sb & Vb & Nb); [rewrite Eb; auto|].
  assert (Ra : 0 <= a < heFill m) by apply La. assert (Rb : 0 <= b < heFill m) by apply Lb.
  assert (FNa : forall h, liveH m h -> F h = a -> h = a) by (intros h L K; destruct (OLD h L) as [[O|O] _]; [congruence|lia]).
  assert (FNb : forall h, liveH m h -> F h = b -> h = b) by (intros h L K; destruct (OLD h L) as [[O|O] _]; [congruence|lia]).
  assert (SNa : forall h, liveH m h -> S h = a -> h = a) by (intros h L K; destruct (OLD h L) as [_ [O|O]]; [congruence|lia]).
  assert (SNb : forall h, liveH m h -> S h = b -> h = b) by (intros h L K; destruct (OLD h L) as [_ [O|O]]; [congruence|lia]).
  assert (LFG : forall h, liveH m h -> liveH g (F h)) by (intros h L; apply LV; eauto). assert (LSG : forall h, liveH m h -> liveH g (S h)) by (intros h L; apply LV; eauto).
  assert (Ga : liveH g a) by (rewrite <- Fa; auto). assert (Gb : liveH g b) by (rewrite <- Fb; auto).
  assert (NX : forall h, liveH m h -> liveH m (nx m h)) by apply CN.
  assert (C1 : nx g b <> a). { rewrite Nb. intros K. apply FNa in K; auto. unfold b in K. apply (D1 e La). exact K. }
  destruct (insert_spec g e VG Ga C1) as (g' & E & V' & N1 & N2 & N3 & N4 & N5 & X1 & X2 & X3 & X4 & LH & LVt & LF & W1 & W2 & W3 & W4 & Y1 & Y2 & Y3 & Y4 & Y5 & Z1 & Z2 & Z3 & _ & _ & DL & H1 & H2 & H3 & H4 & H5 & _).
  cbv zeta in *. fold a b in W1, W2, W3, W4, Y1, Y2, Y3, Y4, Y5, Z1, Z2, Z3, E. set (a' := heFill g) in *. set (b' := a' + 1) in *. set (v := vFill g) in *.
  set (F' := fun h => if h =? a then a' else F h). set (S' := fun h => if h =? b then b' else S h). set (M' := fun x => if x =? e then v else M x).
  assert (F'a : F' a = a') by (unfold F'; rewrite Z.eqb_refl; auto). assert (F'o : forall h, h <> a -> F' h = F h) by (intros h K; unfold F'; rewrite (proj2 (Z.eqb_neq _ _) K); auto).
  assert (S'b : S' b = b') by (unfold S'; rewrite Z.eqb_refl; auto). assert (S'o : forall h, h <> b -> S' h = S h) by (intros h K; unfold S'; rewrite (proj2 (Z.eqb_neq _ _) K); auto).
  assert (M'e : M' e = v) by (unfold M'; rewrite Z.eqb_refl; auto). assert (M'o : forall x, x <> e -> M' x = M x) by (intros x K; unfold M'; rewrite (proj2 (Z.eqb_neq _ _) K); auto).
  assert (T' : tw b' = a') by (rewrite <- X4; apply tw_tw).
  assert (NEXT : forall x h, liveH g x -> x <> b -> liveH m h -> nx g x = F h -> nx g' x = F' h).
  { intros x h Lx Nx Lh K. destruct (Z.eq_dec h a) as [->|Nh]; [rewrite F'a; apply Y4; auto; congruence|]. rewrite F'o by auto. rewrite <- K. apply Y5; auto. rewrite K. intros K'. apply FNa in K'; auto. }
  exists g', M', F', S'. split; [exact E|]. split; [|repeat split; auto; try (rewrite W4 by auto; auto); try (apply LH; left; exact Ga); try congruence; lia].
  constructor; auto.
  - repeat split; lia.
  - intros f. rewrite LF. apply FL.
  - intros x. rewrite LH, LV. split.
    + intros [(h & L & [->| ->])|[->| ->]].
      * destruct (Z.eq_dec h a) as [->|K]; [exists a; rewrite S'o by auto; split; auto; right; congruence|exists h; rewrite F'o by auto; auto].
      * destruct (Z.eq_dec h b) as [->|K]; [exists b; rewrite F'o by auto; split; auto; left; congruence|exists h; rewrite S'o by auto; auto].
      * exists a. auto.
      * exists b. auto.
    + intros (h & L & [->| ->]).
      * destruct (Z.eq_dec h a) as [->|K]; [rewrite F'a; auto|rewrite F'o by auto; left; eauto].
      * destruct (Z.eq_dec h b) as [->|K]; [rewrite S'b; auto|rewrite S'o by auto; left; eauto].
  - intros h L. destruct (OLD h L) as [O1 O2]. split.
    + destruct (Z.eq_dec h a) as [->|K]; [rewrite F'a; right; unfold a'; lia|rewrite F'o; auto].
    + destruct (Z.eq_dec h b) as [->|K]; [rewrite S'b; right; unfold b'; lia|rewrite S'o; auto].
  - intros h L [Dn|Ee].
    + assert (Ha : h <> a) by (intros ->; rewrite Ea in Dn; auto). assert (Hb : h <> b) by (intros ->; rewrite Eb in Dn; auto). assert (He : edge h <> e) by (intros K; rewrite K in Dn; auto).
      destruct (DN h L Dn) as (P1 & P2 & P3 & P4 & P5 & P6). rewrite F'o, S'o, M'o by auto. assert (KF : F h <> a) by (intros K; apply Ha, FNa; auto). assert (KS : S h <> a) by (intros K; apply Ha, SNa; auto). assert (KF' : F h <> b) by (intros K; apply Hb, FNb; auto). assert (KS' : S h <> b) by (intros K; apply Hb, SNb; auto).
      split; [rewrite W4; auto|]. split; [rewrite W4; auto|]. split; [rewrite Y5; auto; rewrite P3; auto|]. split; [apply NEXT; auto|]. split; [|lia]. rewrite S'o; auto. intros K. apply Ha. rewrite <- (tw_tw h), K. apply tw_tw.
    + destruct (edge_two h e Ee) as [->| ->].
      * fold a. rewrite F'a, S'o, Ea, M'e, Sa by auto. split; [congruence|]. split; [auto|]. split; [auto|]. split; [apply NEXT; auto|]. split; [fold b; rewrite S'b; auto|lia].
      * fold a. fold b. rewrite F'o, S'b, Eb, M'e, Fb by auto. split; [rewrite W4; auto; congruence|]. split; [auto|]. split; [auto|]. split; [rewrite Y3, Nb, F'o; auto; apply (D1 e La)|]. split; [unfold b; rewrite tw_tw, S'o, Sa; auto|lia].
  - intros h L Nd'. assert (He : edge h <> e) by (intros K; apply Nd'; auto). assert (Ha : h <> a) by (intros ->; auto). assert (Hb : h <> b) by (intros ->; auto). destruct (TD h L) as (P1 & P2 & P3 & P4); [intros K; apply Nd'; auto|].
    assert (Gh : liveH g h) by (rewrite <- P1; auto). rewrite F'o, S'o by auto. split; [auto|]. split; [auto|]. split; [rewrite W4; auto|]. apply NEXT; auto.
  - intros h L. destruct (FA h L) as [P1 P2]. split.
    + destruct (Z.eq_dec h a) as [->|K]; [rewrite F'a; congruence|rewrite F'o, Z3; auto].
    + destruct (Z.eq_dec h b) as [->|K]; [rewrite S'b; congruence|rewrite S'o, Z3; auto].
  - intros h k Lh Lk. destruct (IJ h k Lh Lk) as [I1 I2]. split; intros K.
    + destruct (Z.eq_dec h a) as [->|Nh], (Z.eq_dec k a) as [->|Nk]; rewrite ?F'a, ?F'o in K by auto; auto; exfalso; [apply X2; rewrite K|apply X2; rewrite <- K]; auto.
    + destruct (Z.eq_dec h b) as [->|Nh], (Z.eq_dec k b) as [->|Nk]; rewrite ?S'b, ?S'o in K by auto; auto; exfalso; [apply X3; rewrite K|apply X3; rewrite <- K]; auto.
Qed.
(** ** the loop *)
Definition upto (i : nat) (e : Z) : Prop := liveH m (eHe e) /\ e < Z.of_nat i.
Lemma sided_done done done' g F S M : (forall h, liveH m h -> done (edge h) <-> done' (edge h)) -> Sided m done g F S M -> Sided m done' g F S M.
Proof. intros K [A B C D E G H I J IJ]. constructor; auto; try (intros h L Dn); [apply H; auto; apply K; auto|apply I; auto; rewrite K; auto]. Qed.
(** the state of the loop over the edges: the edges below i are split *)
Record SplitTo (pos edgePt : Z -> V3) (i : nat) (r : refine) (F S M : Z -> Z) : Prop := {
  sp_sd : Sided m (upto i) (rM r) F S M;
  sp_v : forall v, v < vFill m -> rV r v = true /\ rP r v = pos v;
  sp_n : forall v, vFill m <= v < vFill (rM r) -> rV r v = false;
  sp_e : forall e, Z.of_nat i <= e < eFill m -> rE r e = true;
  sp_p : forall e, upto i e -> rP r (M e) = edgePt e;
  sp_inj : forall e k, upto i e -> upto i k -> M e = M k -> e = k;
  sp_cnt : nVertices (rM r) = nVertices m + countb (fun e => liveHb m (2 * e)) (Z.of_nat i) /\ nEdges (rM r) = nEdges m + countb (fun e => liveHb m (2 * e)) (Z.of_nat i) /\
    nFaces (rM r) = nFaces m /\ nLoops (rM r) = nLoops m }.
Lemma splitTo_step pos edgePt i r F S M : SplitTo pos edgePt i r F S M -> Z.of_nat i < eFill m ->
  exists r' F' S' M', (if okayAt (rM r) EEdge i then splitSide edgePt r (Z.of_nat i) else Ok r) = Ok r' /\ SplitTo pos edgePt (Datatypes.S i) r' F' S' M'.
Proof.
  intros [SD SV SN SE SP SI SC] Hi. set (e := Z.of_nat i) in *. pose proof (sd_v _ _ _ _ _ _ SD) as VG. set (g := rM r) in *. assert (ST := va_st _ V). assert (STG := va_st _ VG).
  assert (HE : heFill m = 2 * eFill m) by apply ST. assert (HG : heFill g = 2 * eFill g) by apply STG. destruct (sd_fill _ _ _ _ _ _ SD) as (_ & _ & _ & Q4 & Q5). assert (HL : heFill m <= heFill g) by exact Q5.
  assert (CS : countb (fun e => liveHb m (2 * e)) (Z.of_nat (Datatypes.S i)) = countb (fun e => liveHb m (2 * e)) e + b2z (liveHb m (2 * e))) by (rewrite Nat2Z.inj_succ; fold e; unfold Z.succ; rewrite (countb_S (fun e => liveHb m (2 * e)) e) by lia; reflexivity).
  assert (RE : 0 <= eHe e < heFill m) by (unfold eHe; lia).
  assert (LG : liveH g (eHe e) <-> liveH m (eHe e)).
  { rewrite (sd_live _ _ _ _ _ _ SD). split.
    - intros (h & L & [K|K]); destruct (sd_old _ _ _ _ _ _ SD h L) as [O1 O2]; [destruct O1 as [O|O]|destruct O2 as [O|O]]; try (clear - K O RE; lia); rewrite O in K; congruence.
    - intros L. exists (eHe e). split; auto. destruct (sd_todo _ _ _ _ _ _ SD _ L) as (K & _); [intros [_ K]; rewrite edge_eHe in K; lia|]. left. congruence. }
  assert (OK : okayAt g EEdge i = true <-> liveH g (eHe e)) by (apply (okay_live g EEdge i VG); cbn [fillOf]; lia).
  assert (UP : forall x, upto (Datatypes.S i) x <-> upto i x \/ (x = e /\ liveH m (eHe e))).
  { intros x. unfold upto. rewrite Nat2Z.inj_succ. fold e. split; [intros [A B]; destruct (Z.eq_dec x e) as [->|N]; [auto|left; split; [auto|lia]]|intros [[A B]|[-> A]]; split; auto; lia]. }
  destruct (okayAt g EEdge i) eqn:EO.
  - assert (L : liveH m (eHe e)) by (apply LG, OK; auto). assert (NU : ~ upto i e) by (intros [_ K]; fold e in K; lia).
    destruct (sided_step (upto i) g F S M e SD L NU) as (g' & M' & F' & S' & E & SD' & X1 & X2 & X3 & X4 & X5 & X6 & X7 & X8 & X9 & N1 & N2 & N3 & N4 & La).
    assert (V' := sd_v _ _ _ _ _ _ SD'). assert (CN' := va_cn _ V').
    assert (Lb : liveH g' (tw (eHe e))) by (apply (cn_tw _ CN'); auto). assert (Lt : liveH g' (heFill g + 1)) by (rewrite <- X2; apply (cn_nx _ CN'); auto).
    assert (L2 : liveH g' (heFill g)) by (rewrite <- X3; apply (cn_tw _ CN'); auto).
    assert (Rv : forall h, liveH m h -> ve m h < vFill m) by (intros h K; apply (cn_ve _ CN) in K; apply K).
    unfold splitSide. fold e. rewrite (SE e) by lia. cbn [negb]. fold g. rewrite E. cbn [bind].
    rewrite (vOf g' _ V') by auto. cbn [bind]. rewrite X1. rewrite (next_live g' V') by auto. cbn [bind]. rewrite X2.
    rewrite (vOf g' _ V') by auto. cbn [bind]. rewrite X4, X3. rewrite (vOf g' _ V') by auto. cbn [bind]. rewrite X5.
    assert (A1 := Rv _ L). assert (A2 := Rv _ (cn_tw _ CN _ L)).
    unfold setf at 1 2. rewrite !(proj2 (Z.eqb_neq _ _)) by lia. rewrite (proj1 (SV _ A1)), (proj1 (SV _ A2)). cbn [andb guard bind].
    assert (B1 : b2z (liveHb m (2 * e)) = 1). { unfold liveHb. destruct L as [_ L]. unfold eHe in L. rewrite (proj2 (Z.eqb_neq _ _) L). reflexivity. }
    eexists _, F', S', M'. split; [reflexivity|]. constructor; cbn [rM rV rE rF rP].
    + apply (sided_done (fun x => upto i x \/ x = e)); auto. intros h _. rewrite UP. tauto.
    + intros v Hv. unfold setf. rewrite !(proj2 (Z.eqb_neq _ _)) by lia. apply SV; auto.
    + intros v Hv. unfold setf. destruct (Z.eqb_spec v (vFill g)) as [->|K]; auto. apply SN. lia.
    + intros x Hx. rewrite Nat2Z.inj_succ in Hx. fold e in Hx. unfold setf. rewrite edge_eHe. rewrite !(proj2 (Z.eqb_neq _ _)); [apply SE; lia|lia|]. unfold edge. intros ->. clear - Hx HE HL. assert (heFill m / 2 <= (heFill g + 1) / 2) by (apply Z.div_le_mono; lia). rewrite HE, Z.mul_comm, Z.div_mul in H by lia. lia.
    + intros x Hx. apply UP in Hx. unfold setf. destruct (Z.eq_dec x e) as [->|Nx].
      * rewrite X6, Z.eqb_refl. reflexivity.
      * destruct Hx as [Hx|[Hx _]]; [|contradiction]. rewrite X7 by auto. destruct (sd_done _ _ _ _ _ _ SD (eHe x)) as (_ & _ & _ & _ & _ & K); [apply Hx|rewrite edge_eHe; auto|]. rewrite edge_eHe in K. rewrite (proj2 (Z.eqb_neq _ _)) by lia. apply SP; auto.
    + assert (RM : forall x, upto i x -> M x < vFill g). { intros x Hx. destruct (sd_done _ _ _ _ _ _ SD (eHe x)) as (_ & _ & _ & _ & _ & K); [apply Hx|rewrite edge_eHe; auto|]. rewrite edge_eHe in K. lia. }
      intros x y Hx Hy K. apply UP in Hx. apply UP in Hy. destruct (Z.eq_dec x e) as [->|Nx], (Z.eq_dec y e) as [->|Ny]; auto.
      * destruct Hy as [Hy|[Hy _]]; [|contradiction]. rewrite X6, X7 in K by auto. apply RM in Hy. lia.
      * destruct Hx as [Hx|[Hx _]]; [|contradiction]. rewrite X6, X7 in K by auto. apply RM in Hx. lia.
      * destruct Hy as [Hy|[Hy _]]; [|contradiction]. destruct Hx as [Hx|[Hx _]]; [|contradiction]. rewrite !X7 in K by auto. auto.
    + destruct SC as (C1 & C2 & C3 & C4). rewrite CS, B1. repeat split; lia.
  - exists r, F, S, M. split; auto. assert (NL : ~ liveH m (eHe e)) by (intros K; apply LG, OK in K; congruence).
    assert (B0 : b2z (liveHb m (2 * e)) = 0). { unfold liveHb. destruct (Z.eqb_spec (nx m (2 * e)) (-1)) as [K|K]; [reflexivity|]. exfalso. apply NL. split; auto. }
    assert (UE : forall x, upto (Datatypes.S i) x <-> upto i x) by (intros x; rewrite UP; tauto).
    constructor; auto.
    + apply (sided_done (upto i)); auto. intros h _. symmetry. apply UE.
    + intros x K. apply SE. lia.
    + intros x K. apply SP, UE; auto.
    + intros x y K1 K2. apply SI; apply UE; auto.
    + rewrite CS, B0, Z.add_0_r. exact SC.
Qed.
Lemma split_edges pos edgePt : NoDeadLoops m -> exists r F S M,
  visitAll EEdge (splitSide edgePt) (mkRefine m (fun _ => true) (fun _ => true) (fun _ => true) pos) = Ok r /\ SplitTo pos edgePt (Z.to_nat (eFill m)) r F S M.
Proof.
  intros ND. set (r0 := mkRefine m _ _ _ pos). set (body := fun r i => if okayAt (rM r) EEdge i then splitSide edgePt r (Z.of_nat i) else Ok r).
  assert (ST := va_st _ V). assert (HE : heFill m = 2 * eFill m) by apply ST. assert (H0 : 0 <= heFill m) by apply ST.
  assert (G : forall n, (n <= Z.to_nat (eFill m))%nat -> exists r F S M, foldM body (seq 0 n) r0 = Ok r /\ SplitTo pos edgePt n r F S M).
  { induction n as [|n IH]; intros Hn.
    - exists r0, (fun h => h), (fun h => h), (fun e => e). split; [reflexivity|]. constructor; cbn [rM rV rE rF rP r0]; auto.
      + apply (sided_done (fun _ => False)); [|apply sided_start; auto]. intros h L. split; [tauto|]. intros [_ K]. destruct L as [L _]. unfold edge in K. assert (0 <= h / 2) by (apply Z.div_pos; lia). lia.
      + intros v K. lia.
      + intros e [K1 K2]. destruct K1 as [K1 _]. unfold eHe in K1. lia.
      + rewrite countb_0 by lia. repeat split; lia.
    - destruct IH as (r & F & S & M & E & SP); [lia|]. destruct (splitTo_step pos edgePt n r F S M SP) as (r' & F' & S' & M' & E' & SP'); [lia|].
      exists r', F', S', M'. split; auto. rewrite seq_S, foldM_app, E. cbn [bind foldM]. cbn [Nat.add]. unfold body at 1. rewrite E'. reflexivity. }
  destruct (G _ (le_n _)) as (r & F & S & M & E & SP). exists r, F, S, M. split; auto.
Qed.
End Split.
