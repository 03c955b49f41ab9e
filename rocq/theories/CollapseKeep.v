(** A collapse leaves triangles, and no double edges. *)
From Verif Require Import Base MeshModel MeshModel2 MeshSpec MeshBase MeshExec MeshOrbit MeshFlip MeshDel MeshOpSpec MeshThms MeshConnect MeshSplit CollapseModel CollapseMap CollapseSpec CollapseProofs CollapseTop.
Open Scope Z_scope.

Section Keep.
Context (m m' : mesh) (V : Valid m) (V' : Valid m') (TR : triangular m) (a : Z) (La : liveH m a) (Ia : ~ ext m a) (CO : Collapsed m m' a).
Let CN := va_cn _ V.
Let CN' := va_cn _ V'.
Lemma ext_L M h : Valid M -> liveH M h -> (ext M h <-> liveL M (fa M h)).
Proof.
  intros VM H. pose proof (cn_fa _ (va_cn _ VM) h H) as K. destruct (va_st _ VM) as [_ _ _ _ _ _ _ _ Hf]. unfold ext, liveFL, liveF, liveL in *. split; [|clear -Hf; lia].
  intros X. destruct K as [[K _]|K]; [clear -K X; lia|auto].
Qed.
(** a side of a face of the result comes from a side of a face that was kept *)
Definition keptSide (h : Z) : Prop := liveH m h /\ fa m h <> fa m a /\ (fa m h = fa m (tw a) -> ext m (tw a)) /\ h <> tw a.
Lemma kept_tri : (forall h', liveH m' h' -> exists h, keptSide h /\ moved m a h = h') ->
  (forall h k, keptSide h -> keptSide k -> moved m a h = moved m a k -> h = k) -> triangular m'.
Proof.
  intros SU IJ h' L' X'. destruct (SU h' L') as (h & K & <-).
  assert (ST : forall k, keptSide k -> ext m' (moved m a k) <-> ext m k).
  { intros k (K1 & K2 & K3 & K4). destruct (co_side _ _ _ CO k K1 K2 K3 K4) as (Q1 & Q2 & _). rewrite (ext_L m') by auto. rewrite (ext_L m) by auto. rewrite Q2. apply (co_l _ _ _ CO). }
  assert (NX : forall k, keptSide k -> ~ ext m k -> nx m' (moved m a k) = moved m a (nx m k) /\ keptSide (nx m k) /\ ~ ext m (nx m k)).
  { intros k (K1 & K2 & K3 & K4) X. destruct (co_side _ _ _ CO k K1 K2 K3 K4) as (Q1 & Q2 & Q3).
    assert (NB : nx m k <> tw a). { intros E. assert (F : fa m k = fa m (tw a)) by (rewrite <- E; symmetry; apply (cn_fnx _ CN); auto). apply X. unfold ext. rewrite F. apply K3. auto. }
    split; [rewrite Q3; destruct (Z.eqb_spec (nx m k) (tw a)); [contradiction|auto]|]. split; [|rewrite (ext_nx m V) by auto; auto].
    split; [apply CN; auto|]. rewrite (cn_fnx _ CN) by auto. auto. }
  assert (X : ~ ext m h) by (rewrite <- ST; auto). destruct (NX h K X) as (N1 & K1 & X1). destruct (NX _ K1 X1) as (N2 & K2 & X2). destruct (NX _ K2 X2) as (N3 & K3 & X3).
  destruct (TR h (proj1 K) X) as (_ & T & NE). split; auto. split; [congruence|]. rewrite N1. intros E. apply IJ in E; auto.
Qed.
End Keep.

Lemma tri_int m m' a : Valid m -> Valid m' -> triangular m -> noSelfEdges m -> liveH m a -> ~ ext m a -> ~ ext m (tw a) -> ~ ext m (tw (nx m (tw a))) -> ~ thin m a -> Collapsed m m' a -> triangular m'.
Proof.
  intros V V' TR NS La Ia Ib ID DEG CO. pose proof (va_cn _ V) as CN.
  pose proof (a_facts m V TR NS a La Ia) as AF. pose proof (b_facts m V TR NS a La Ia Ib ID DEG) as BF. pose proof (A1_neq m V TR NS a La Ia) as AN. pose proof (B2_neq m V TR NS a La Ia Ib ID DEG) as BN. pose proof (D1_neq m V TR NS a La Ia Ib ID DEG) as DN. pose proof (C2_facts m V TR NS a La Ia) as C2F.
  pose proof (gone6 m a Ib) as Gn.
  pose proof (in_A m V TR a La Ia) as INA. pose proof (in_B m V TR a La Ib) as INB.
  assert (MV : forall k, moved m a k = if k =? tw (nx m (nx m a)) then nx m a else if k =? tw (nx m (tw a)) then nx m (nx m (tw a)) else k).
  { intros k. unfold moved. destruct (Z.leb_spec (fFill m) (fa m (tw a))) as [K|K]; [exfalso; apply Ib; exact K|auto]. }
  cbv zeta in *. set (b := tw a) in *. set (A1 := nx m a) in *. set (A2 := nx m A1) in *. set (C2 := tw A2) in *. set (B1 := nx m b) in *. set (B2 := nx m B1) in *. set (D1 := tw B1) in *.
  destruct AF as (Lb & L1 & L2 & L3 & L4 & L5 & T & V1 & V2 & V3 & V4 & V5 & N1 & N2 & N3 & F1 & F2 & F3 & F4 & I1 & I2).
  destruct BF as (M1 & M2 & M3 & M4 & M5 & TB & W1 & W2 & W3 & W4 & X1 & X2 & E1 & E2 & E3 & E4 & I3 & TD & W5 & X3 & X4 & Y1 & Y2 & Y3 & Y4).
  destruct AN as (K1 & K2 & K3 & K4). destruct BN as (P1 & P2 & P3 & P4 & P5 & P6 & P7). destruct DN as (R1 & R2 & R3 & R4 & R5 & R6). destruct C2F as (FC & Q1 & Q2 & Q3 & Q4).
  assert (KS : forall h, keptSide m a h <-> liveH m h /\ fa m h <> fa m a /\ fa m h <> fa m b).
  { intros h. unfold keptSide. fold b. split; [intros (H1 & H2 & H3 & H4); split; auto|intros (H1 & H2 & H3)]. split; auto. split; auto. split; [intros; contradiction|]. intros ->. auto. }
  apply (kept_tri m m' V V' TR a CO).
  - intros h' L'. apply (co_h _ _ _ CO) in L' as [L' G]. rewrite Gn in G.
    destruct (Z.eq_dec h' A1) as [->|O1]. { exists C2. split; [apply KS; auto|]. rewrite MV, Z.eqb_refl. auto. }
    destruct (Z.eq_dec h' B2) as [->|O2]. { exists D1. split; [apply KS; auto|]. rewrite MV, Z.eqb_refl. destruct (Z.eqb_spec D1 C2); [contradiction|auto]. }
    exists h'. split.
    + apply KS. split; auto. split; intros E; [destruct (INA h' L' E) as [Y|[Y|Y]]|destruct (INB h' L' E) as [Y|[Y|Y]]]; try contradiction; apply G; clear -Y; tauto.
    + rewrite MV. destruct (Z.eqb_spec h' C2) as [->|]; [exfalso; apply G; clear; tauto|]. destruct (Z.eqb_spec h' D1) as [->|]; [exfalso; apply G; clear; tauto|auto].
  - intros h k Hh Hk. apply KS in Hh as (H1 & H2 & H3), Hk as (J1 & J2 & J3). rewrite !MV.
    destruct (Z.eqb_spec h C2), (Z.eqb_spec k C2), (Z.eqb_spec h D1), (Z.eqb_spec k D1); intros E; congruence.
Qed.
Lemma tri_bnd m m' a : Valid m -> Valid m' -> triangular m -> noSelfEdges m -> liveH m a -> ~ ext m a -> ext m (tw a) -> ~ ext m (tw (nx m (nx m a))) -> Collapsed m m' a -> triangular m'.
Proof.
  intros V V' TR NS La Ia Xb IC CO. pose proof (va_cn _ V) as CN.
  pose proof (a_facts m V TR NS a La Ia) as AF. pose proof (A1_neq m V TR NS a La Ia) as AN. pose proof (C2_facts m V TR NS a La Ia) as C2F.
  pose proof (gone4 m a Xb) as Gn. pose proof (in_A m V TR a La Ia) as INA.
  assert (MV : forall k, moved m a k = if k =? tw (nx m (nx m a)) then nx m a else k).
  { intros k. unfold moved. destruct (Z.leb_spec (fFill m) (fa m (tw a))) as [K|K]; [auto|exfalso; unfold ext in Xb; clear -K Xb; lia]. }
  cbv zeta in *. set (b := tw a) in *. set (A1 := nx m a) in *. set (A2 := nx m A1) in *. set (C2 := tw A2) in *.
  destruct AF as (Lb & L1 & L2 & L3 & L4 & L5 & T & V1 & V2 & V3 & V4 & V5 & N1 & N2 & N3 & F1 & F2 & F3 & F4 & I1 & I2).
  destruct AN as (K1 & K2 & K3 & K4). destruct C2F as (FC & Q1 & Q2 & Q3 & Q4).
  assert (KS : forall h, keptSide m a h <-> liveH m h /\ fa m h <> fa m a /\ h <> b).
  { intros h. unfold keptSide. fold b. split; [intros (H1 & H2 & H3 & H4); auto|intros (H1 & H2 & H3)]; auto. }
  apply (kept_tri m m' V V' TR a CO).
  - intros h' L'. apply (co_h _ _ _ CO) in L' as [L' G]. rewrite Gn in G.
    destruct (Z.eq_dec h' A1) as [->|O1]. { exists C2. split; [apply KS; auto|]. rewrite MV, Z.eqb_refl. auto. }
    exists h'. split.
    + apply KS. split; auto. split; [|intros ->; apply G; clear; tauto]. intros E; destruct (INA h' L' E) as [Y|[Y|Y]]; try contradiction; apply G; clear -Y; tauto.
    + rewrite MV. destruct (Z.eqb_spec h' C2) as [->|]; [exfalso; apply G; clear; tauto|auto].
  - intros h k Hh Hk. apply KS in Hh as (H1 & H2 & H3), Hk as (J1 & J2 & J3). rewrite !MV.
    destruct (Z.eqb_spec h C2), (Z.eqb_spec k C2); intros E; congruence.
Qed.

(** if no two edges join the same vertices, that is still so afterwards *)
Lemma simple_keep m m' a : Valid m -> Valid m' -> triangular m -> simple m -> liveH m a -> ~ ext m a -> Collapsed m m' a -> ~ linkBad m a -> ~ boundaryTriangle m a -> simple m'.
Proof.
  intros V V' TR [NS SI] La Ia CO LB BT. pose proof (va_cn _ V) as CN. pose proof (va_cn _ V') as CN'.
  assert (Lb : liveH m (tw a)) by (apply CN; auto). assert (N1 : ve m a <> ve m (tw a)) by (apply NS; auto).
  assert (GN : forall h, liveH m' h -> liveH m h /\ h <> a /\ h <> tw a). { intros h H. apply (co_h _ _ _ CO) in H as [H G]. split; auto. split; intros ->; apply G; left; auto. apply tw_edge. }
  assert (TW : forall h, liveH m' h -> liveH m' (tw h)) by (intros; apply CN'; auto).
  (* no new double edge *)
  assert (KEY : forall h k, liveH m' h -> liveH m' k -> ve m h = ve m a -> ve m k = ve m (tw a) -> ve m (tw h) = ve m (tw k) -> False).
  { intros h k H K E1 E2 E3. apply (co_h _ _ _ CO) in H as [Lh Gh]. apply (co_h _ _ _ CO) in K as [Lk Gk].
    assert (P : ~ (nx m a = k /\ nx m k = tw h)). { intros [Q1 Q2]. apply Gh. right; left. rewrite Q1, Q2. symmetry. apply tw_edge. }
    assert (Q : ~ (nx m h = tw k /\ nx m (tw k) = tw a)).
    { intros [Q1 Q2]. assert (Lkt : liveH m (tw k)) by (apply CN; auto). destruct (Z_le_dec (fFill m) (fa m (tw a))) as [X|X].
      - change (ext m (tw a)) in X. assert (Xk : ext m (tw k)) by (rewrite <- (ext_nx m V _ Lkt), Q2; auto). assert (Xh : ext m h) by (rewrite <- (ext_nx m V _ Lh), Q1; auto).
        apply BT. split; auto. assert (S : nx m (tw a) = h). { apply (ext_out_unique m V); auto; [apply CN; auto|apply (ext_nx m V); auto|]. rewrite (cn_vnx _ CN _ Lb), tw_tw. auto. } rewrite S, Q1, Q2. auto.
      - change (~ ext m (tw a)) in X. apply Gh. right; right. split; auto. f_equal. assert (Xh : ~ ext m h). { intros Xh. apply X. rewrite <- Q2. rewrite (ext_nx m V _ Lkt), <- Q1. apply (ext_nx m V); auto. }
        destruct (TR h Lh Xh) as (_ & T & _). rewrite <- T at 1. rewrite Q1, Q2. auto. }
    apply LB. exists h, k. auto 8. }
  assert (NS' : noSelfEdges m').
  { intros h H. pose proof (TW h H) as Ht. rewrite (co_ve _ _ _ CO) by auto. rewrite (co_ve _ _ _ CO (tw h)) by auto. destruct (GN h H) as (Lh & O1 & O2). pose proof (NS h Lh) as NH.
    destruct (Z.eqb_spec (ve m h) (ve m a)) as [E|E], (Z.eqb_spec (ve m (tw h)) (ve m a)) as [F|F]; intros Q.
    - congruence.
    - apply O1. apply SI; auto.
    - apply O2. apply SI; auto. rewrite tw_tw. auto.
    - auto. }
  split; auto. intros h k H K. pose proof (TW h H) as Ht. pose proof (TW k K) as Kt. rewrite !(co_ve _ _ _ CO) by auto.
  destruct (GN h H) as (Lh & O1 & O2). destruct (GN k K) as (Lk & O3 & O4).
  assert (VV : forall v w, (if v =? ve m a then ve m (tw a) else v) = (if w =? ve m a then ve m (tw a) else w) -> v = w \/ (v = ve m a /\ w = ve m (tw a)) \/ (v = ve m (tw a) /\ w = ve m a)).
  { intros v w. destruct (Z.eqb_spec v (ve m a)), (Z.eqb_spec w (ve m a)); intros E; auto; left; congruence. }
  intros E F. apply VV in E, F.
  pose proof (NS h Lh) as Nh. pose proof (NS k Lk) as Nk.
  destruct E as [E|[[E1 E2]|[E1 E2]]], F as [F|[[F1 F2]|[F1 F2]]].
  - apply SI; auto.
  - exfalso. apply (KEY (tw h) (tw k)); auto. rewrite !tw_tw. auto.
  - exfalso. apply (KEY (tw k) (tw h)); auto. rewrite !tw_tw. auto.
  - exfalso. apply (KEY h k); auto.
  - congruence.
  - exfalso. apply O1. apply SI; auto.
  - exfalso. apply (KEY k h); auto.
  - exfalso. apply O2. apply SI; auto. rewrite tw_tw. auto.
  - congruence.
Qed.

Lemma target_edge m e a : ~ (ext m (tw (eHe e)) /\ thin m (eHe e)) -> target m e a -> edge a = e.
Proof.
  intros N [[_ [[_ ->]|[_ ->]]]|[(_ & _ & ->)|(X & T & _)]].
  - apply edge_eHe.
  - rewrite tw_edge. apply edge_eHe.
  - apply edge_eHe.
  - tauto.
Qed.
Lemma collapse_final m e : Valid m -> triangular m -> noSelfEdges m -> liveH m (eHe e) ->
  match collapseEdgeTriangular m e with
  | Ok (m', None) => m' = m /\ ((~ ext m (tw (eHe e)) /\ onBoundary m (ve m (eHe e)) /\ onBoundary m (ve m (tw (eHe e)))) \/ exists a, target m e a /\ (linkBad m a \/ boundaryTriangle m a))
  | Ok (m', Some v) => exists a, target m e a /\ v = ve m (tw a) /\ ~ linkBad m a /\ ~ boundaryTriangle m a /\ Valid m' /\ Collapsed m m' a /\ triangular m' /\ (simple m -> simple m')
  | Throw => exists a, target m e a /\ ~ ext m (tw a) /\ thin m a
  | UB => False
  end.
Proof.
  intros V TR NS Le. pose proof (collapse_outcome m V TR NS e Le) as K. destruct (collapseEdgeTriangular m e) as [[m' [v|]]| |]; auto.
  destruct K as (a & TG & E & LB & BT & (La & Ia & A1 & A2) & V' & C'). exists a. do 6 (split; [solve [auto]|]). split.
  - destruct (Z_le_dec (fFill m) (fa m (tw a))) as [X|X].
    + apply (tri_bnd m m' a); auto.
    + destruct (A2 X). apply (tri_int m m' a); auto.
  - intros S. apply (simple_keep m m' a); auto.
Qed.
