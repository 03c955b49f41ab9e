(** ManifoldSurfaceMesh::insertVertexAlongEdge *)
From Verif Require Import Base MeshModel MeshSpec MeshBase MeshExec MeshOrbit MeshAlloc MeshFlip.
Open Scope Z_scope.

Lemma countb_2 p n : 0 <= n -> countb p (n + 2) = countb p n + b2z (p n) + b2z (p (n + 1)).
Proof. intros H. replace (n + 2) with (n + 1 + 1) by lia. rewrite countb_S by lia. rewrite countb_S by lia. lia. Qed.

(** effect of insertVertexAlongEdge on the halfedge a with predecessor p; g is the mesh after growing storage *)
Record InsEff (g m' : mesh) (a p : Z) : Prop := {
  ie_cnt : (nHalfedges m', nInterior m', nEdges m', nVertices m', nFaces m', nLoops m') =
           (nHalfedges g + 2, nInterior g + (if fFill g <=? fa g (tw a) then 1 else 2), nEdges g + 1, nVertices g + 1, nFaces g, nLoops g);
  ie_fill : (heFill m', eFill m', vFill m', fFill m', bFill m') = (heFill g + 2, eFill g + 1, vFill g + 1, fFill g, bFill g);
  ie_cap : (heCap m', eCap m', vCap m', fCap m') = (heCap g, eCap g, vCap g, fCap g);
  ie_lens : lens m' = lens g;
  ie_nA : nx m' (heFill g) = a;
  ie_nB : nx m' (heFill g + 1) = nx g (tw a);
  ie_nb : nx m' (tw a) = heFill g + 1;
  ie_np : nx m' p = heFill g;
  ie_nx : forall h, 0 <= h < heFill g -> h <> tw a -> h <> p -> nx m' h = nx g h;
  ie_vA : ve m' (heFill g) = ve g a; ie_vB : ve m' (heFill g + 1) = vFill g; ie_va : ve m' a = vFill g;
  ie_ve : forall h, 0 <= h < heFill g -> h <> a -> ve m' h = ve g h;
  ie_fA : fa m' (heFill g) = fa g a; ie_fB : fa m' (heFill g + 1) = fa g (tw a);
  ie_fa : forall h, 0 <= h < heFill g -> fa m' h = fa g h;
  ie_vN : vh m' (vFill g) = a;
  ie_v0 : vh g (ve g a) = a -> vh m' (ve g a) = heFill g;
  ie_vh : forall v, v <> vFill g -> v <> ve g a \/ vh g v <> a -> vh m' v = vh g v;
  ie_fh : forall f, fh m' f = fh g f }.

Section InsValid.
Context (g m' : mesh) (a p : Z) (V : Valid g).
Context (La : liveH g a) (Ev : a mod 2 = 0) (Lp : liveH g p) (Np : nx g p = a) (Pre : nx g (tw a) <> a).
Context (St' : heFill g + 2 <= heCap g /\ vFill g + 1 <= vCap g).
Context (E : InsEff g m' a p).

Lemma ins_valid : Valid m'.
Proof.
  destruct V as [ST CT CN SG]. destruct E as [Cn Fl Cp Le NA NB Nb Npp NO VA VB Va VO FA FB FO HN H0 HOg FH].
  injection Cn as C1 C2 C3 C4 C5 C6. injection Fl as F1 F2 F3 F4 F5. injection Cp as P1 P2 P3 P4.
  unfold lens in Le. injection Le as Z1 Z2 Z3 Z4 Z5.
  destruct ST as [T1 T2 T3 T4 T5 T6 T7 T8 T9].
  set (hA := heFill g) in *. set (hB := hA + 1) in *. set (b := tw a) in *. set (nV := vFill g) in *.
  assert (HO : forall v, 0 <= v < nV -> v <> ve g a \/ vh g v <> a -> vh m' v = vh g v) by (intros v Kv; apply HOg; clear -Kv; lia).
  assert (Lb : liveH g b) by (apply CN; auto).
  assert (TA : tw hA = hB) by (apply tw_even; clear -T6 T7; unfold hA; lia).
  assert (TB : tw hB = hA) by (rewrite <- TA; apply tw_tw).
  assert (Tb : tw b = a) by apply tw_tw. assert (Ta : tw a = b) by reflexivity.
  assert (LR : forall h, liveH g h -> 0 <= h < hA) by (intros h [K _]; exact K).
  assert (LVR : forall v, liveV g v -> 0 <= v < nV) by (intros v [K _]; exact K).
  assert (Ra := LR _ La). assert (Rb := LR _ Lb). assert (Rp := LR _ Lp).
  assert (pb : p <> b) by (intros ->; auto).
  assert (ab : a <> b) by (intros K; apply (tw_neq a); auto).
  assert (Iab : ~ ext g a) by (apply CN; auto).
  assert (NAB : hA <> hB) by (clear; unfold hB; lia).
  assert (LvA : liveV g (ve g a)) by (apply CN; auto). assert (RvA := LVR _ LvA).
  assert (RO : forall h, 0 <= h < hA -> h <> hA /\ h <> hB) by (clear; unfold hB; intros; lia).
  assert (ROA := RO _ Ra). assert (ROb := RO _ Rb). assert (ROp := RO _ Rp).
  assert (RhA : 0 <= hA) by (clear -Ra; lia).
  (* liveness *)
  assert (NXL : forall h, 0 <= h < hA -> (nx m' h = -1 <-> nx g h = -1)).
  { intros h Hh. destruct (Z.eq_dec h b) as [->|K1]; [rewrite Nb; pose proof (proj2 Lb); unfold hB; li|].
    destruct (Z.eq_dec h p) as [->|K2]; [rewrite Npp, Np; li|]. rewrite NO by auto. tauto. }
  assert (LH : forall h, liveH m' h <-> (liveH g h \/ h = hA \/ h = hB)).
  { intros h. unfold liveH. rewrite F1. fold hA. split.
    - intros [K1 K2]. assert (0 <= h < hA \/ h = hA \/ h = hB) as [K|K] by (unfold hB; li); [|auto]. left. split; auto.
      intros K3. apply K2. apply NXL; auto.
    - intros [[K1 K2]|[->| ->]].
      + split; [li|]. rewrite NXL by auto. auto.
      + rewrite NA. split; li.
      + rewrite NB. split; [unfold hB; li|]. assert (K := LR _ (cn_nx _ CN _ Lb)). li. }
  assert (LHo : forall h, liveH g h -> liveH m' h) by (intros; apply LH; auto).
  assert (LHA : liveH m' hA) by (apply LH; auto). assert (LHB : liveH m' hB) by (apply LH; auto).
  assert (VXL : forall v, 0 <= v < nV -> (vh m' v = -1 <-> vh g v = -1)).
  { intros v Hv. destruct (Z.eq_dec v (ve g a)) as [->|K1]; [|rewrite HO by auto; tauto].
    destruct (Z.eq_dec (vh g (ve g a)) a) as [K2|K2]; [rewrite H0, K2 by auto; li|rewrite HO by auto; tauto]. }
  assert (LV : forall v, liveV m' v <-> (liveV g v \/ v = nV)).
  { intros v. unfold liveV. rewrite F3. fold nV. split.
    - intros [K1 K2]. assert (0 <= v < nV \/ v = nV) as [K|K] by li; auto. left. split; auto. intros K3. apply K2, VXL; auto.
    - intros [[K1 K2]| ->]; [split; [li|rewrite VXL by auto; auto]|]. rewrite HN. split; li. }
  assert (LF : forall f, liveFL m' f <-> liveFL g f).
  { intros f. unfold liveFL, liveF, liveL. rewrite F4, F5, P4, FH. tauto. }
  assert (TWo : forall h, liveH g h -> liveH g (tw h)) by (apply CN).
  assert (TWr : forall h, liveH g h -> tw h <> hA /\ tw h <> hB) by (intros h Hh; apply RO, LR, TWo; auto).
  assert (NOl : forall h, liveH g h -> h <> b -> h <> p -> nx m' h = nx g h) by (intros; apply NO; auto).
  assert (FOl : forall h, liveH g h -> fa m' h = fa g h) by (intros; apply FO; auto).
  assert (VOl : forall h, liveH g h -> h <> a -> ve m' h = ve g h) by (intros; apply VO; auto).
  assert (CTW : forall h, liveH m' h -> liveH m' (tw h)).
  { intros h Hh. apply LH in Hh as [K|[->| ->]]; [apply LHo, TWo; auto|rewrite TA; auto|rewrite TB; auto]. }
  assert (CNX : forall h, liveH m' h -> liveH m' (nx m' h)).
  { intros h Hh. apply LH in Hh as [K|[->| ->]].
    - destruct (Z.eq_dec h b) as [->|K1]; [rewrite Nb; auto|]. destruct (Z.eq_dec h p) as [->|K2]; [rewrite Npp; auto|].
      rewrite NOl by auto. apply LHo, CN; auto.
    - rewrite NA; auto.
    - rewrite NB; apply LHo, CN; auto. }
  assert (INJ : forall x y, liveH g x -> liveH g y -> nx g x = nx g y -> x = y) by (apply CN).
  assert (NXr : forall h, liveH g h -> 0 <= nx g h < hA) by (intros; apply LR, CN; auto).
  assert (CINJ : forall x y, liveH m' x -> liveH m' y -> nx m' x = nx m' y -> x = y).
  { assert (OV : forall h, liveH g h -> (h = b /\ nx m' h = hB) \/ (h = p /\ nx m' h = hA) \/ (h <> b /\ h <> p /\ nx m' h = nx g h)).
    { intros h Hh. destruct (Z.eq_dec h b) as [->|K1]; [auto|]. destruct (Z.eq_dec h p) as [->|K2]; [auto|]. right; right. auto. }
    assert (HX : forall h, liveH g h -> h <> b -> h <> p -> nx g h <> hA /\ nx g h <> hB /\ nx g h <> a /\ nx g h <> nx g b).
    { intros h Hh K1 K2. destruct (RO _ (NXr h Hh)) as [? ?]. split; [auto|split; [auto|split; intros K; [apply K2|apply K1]; apply INJ; auto; congruence]]. }
    assert (HY : nx g b <> hA /\ nx g b <> hB) by (apply RO, NXr; auto).
    intros x y Hx Hy. apply LH in Hx. apply LH in Hy.
    destruct Hx as [Hx|[->| ->]], Hy as [Hy|[->| ->]]; auto; rewrite ?NA, ?NB.
    - destruct (OV x Hx) as [(-> & ->)|[(-> & ->)|(K1 & K2 & ->)]]; destruct (OV y Hy) as [(-> & ->)|[(-> & ->)|(K3 & K4 & ->)]]; auto; intros K; try congruence;
        try (destruct (HX _ Hx K1 K2) as (? & ? & ? & ?)); try (destruct (HX _ Hy K3 K4) as (? & ? & ? & ?)); congruence || auto.
    - destruct (OV x Hx) as [(-> & ->)|[(-> & ->)|(K1 & K2 & ->)]]; intros K; try (destruct (HX _ Hx K1 K2) as (? & ? & ? & ?)); intuition congruence.
    - destruct (OV x Hx) as [(-> & ->)|[(-> & ->)|(K1 & K2 & ->)]]; intros K; try (destruct (HX _ Hx K1 K2) as (? & ? & ? & ?)); intuition congruence.
    - destruct (OV y Hy) as [(-> & ->)|[(-> & ->)|(K1 & K2 & ->)]]; intros K; try (destruct (HX _ Hy K1 K2) as (? & ? & ? & ?)); intuition congruence.
    - intros K. unfold b in *. congruence.
    - destruct (OV y Hy) as [(-> & ->)|[(-> & ->)|(K1 & K2 & ->)]]; intros K; try (destruct (HX _ Hy K1 K2) as (? & ? & ? & ?)); intuition congruence.
    - intros K. unfold b in *. congruence. }
  assert (RB : forall x, liveH m' x -> 0 <= x < heFill m') by (intros x [K _]; exact K).
  assert (CRL : forall h, liveH m' h -> liveH m' (ro m' h)) by (intros; apply CNX, CTW; auto).
  assert (CRI : forall x y, liveH m' x -> liveH m' y -> ro m' x = ro m' y -> x = y).
  { intros x y Hx Hy K. apply tw_inj. apply CINJ; auto. }
  assert (Lbn : liveH g (nx g b)) by (apply CN; auto).
  split.
  - split; li.
  - destruct CT as [D1 D2 D3 D4 D5 D6].
    assert (LB1 : forall h, 0 <= h < hA -> liveHb m' h = liveHb g h).
    { intros h Hh. unfold liveHb. pose proof (NXL h Hh). f_equal. li. }
    assert (LBA : liveHb m' hA = true) by (unfold liveHb; rewrite NA; li).
    assert (LBB : liveHb m' hB = true) by (unfold liveHb; rewrite NB; pose proof (NXr b Lb); li).
    split.
    + rewrite C1, F1, D1. fold hA. rewrite countb_2 by auto. fold hB. rewrite LBA, LBB. rewrite (countb_ext (liveHb m') (liveHb g)) by auto. simpl. li.
    + rewrite C2, F1, D2. fold hA. rewrite countb_2 by auto. unfold intHb at 3 4. fold hB. rewrite LBA, LBB, FA, FB, F4. fold b.
      rewrite (countb_ext (intHb m') (intHb g)).
      * unfold ext in Iab. destruct (Z.leb_spec (fFill g) (fa g a)), (Z.leb_spec (fFill g) (fa g b)); simpl; li.
      * intros h Hh. unfold intHb. rewrite LB1, F4 by auto. rewrite FO by auto. reflexivity.
    + rewrite C3, F2, D3. rewrite countb_S by (clear -T6 T7; lia). replace (2 * eFill g) with hA by (symmetry; unfold hA; exact (eq_sym (proj1 T7))). rewrite LBA. cbn [b2z]. f_equal.
      apply countb_ext. intros e He. symmetry. apply LB1. clear -T7 He; lia.
    + rewrite C4, F3, D4. fold nV. rewrite countb_S by (unfold nV; li). replace (liveVb m' nV) with true by (unfold liveVb; rewrite HN; li). cbn [b2z]. f_equal.
      apply countb_ext. intros v Hv. unfold liveVb. pose proof (VXL v Hv). f_equal. li.
    + rewrite C5, F4, D5. apply countb_ext. intros f _. unfold liveFb. rewrite FH. reflexivity.
    + rewrite C6, F5, P4, D6. apply countb_ext. intros i _. unfold liveFb. rewrite FH. reflexivity.
  - split; auto.
    + (* vertices *) intros h Hh. apply LV. apply LH in Hh as [K|[->| ->]].
      * destruct (Z.eq_dec h a) as [->|]; [rewrite Va; auto|]. rewrite VOl by auto. left. apply CN; auto.
      * rewrite VA. auto.
      * rewrite VB. auto.
    + intros h Hh. apply LF. apply LH in Hh as [K|[->| ->]]; [rewrite FOl by auto|rewrite FA|rewrite FB]; apply CN; auto.
    + (* tip to tail *)
      intros h Hh. apply LH in Hh as [K|[->| ->]].
      * destruct (Z.eq_dec h b) as [->|K1]; [rewrite Nb, VB, Tb; auto|].
        assert (Kt : tw h <> a) by (intros Kt; apply K1; apply tw_inj; rewrite Tb; auto).
        destruct (Z.eq_dec h p) as [->|K2].
        { rewrite Npp, VA. rewrite VOl by auto. rewrite <- (cn_vnx _ CN) by auto. rewrite Np. auto. }
        rewrite NOl by auto. assert (Kn : nx g h <> a) by (intros Kx; apply K2, INJ; auto; congruence).
        rewrite (VOl (nx g h) (cn_nx _ CN _ K) Kn), (VOl (tw h) (TWo _ K) Kt). apply (cn_vnx _ CN); auto.
      * rewrite NA, TA, Va, VB. auto.
      * rewrite NB, TB, VA. rewrite VOl; auto. rewrite (cn_vnx _ CN) by auto. rewrite Tb. auto.
    + intros h Hh. apply LH in Hh as [K|[->| ->]].
      * destruct (Z.eq_dec h b) as [->|K1]; [rewrite Nb, FB, FOl by auto; auto|].
        destruct (Z.eq_dec h p) as [->|K2]; [rewrite Npp, FA, (FOl p) by auto; rewrite <- Np; apply (cn_fnx _ CN); auto|].
        rewrite NOl by auto. rewrite (FOl _ (cn_nx _ CN _ K)), FOl by auto. apply (cn_fnx _ CN); auto.
      * rewrite NA, FA, FOl; auto.
      * rewrite NB, FB, FOl; auto. apply (cn_fnx _ CN); auto.
    + intros v Hv. apply LV in Hv as [Hv| ->].
      * destruct (cn_vh _ CN v Hv) as (K1 & K2). assert (Rv := LVR _ Hv). destruct (Z.eq_dec (vh g v) a) as [Ea|Ea].
        -- assert (v = ve g a) as -> by congruence. rewrite H0 by auto. auto.
        -- rewrite HO by auto. split; auto. rewrite VOl; auto.
      * rewrite HN. auto.
    + intros f Hf. apply LF in Hf. rewrite FH. destruct (cn_fh _ CN f Hf) as (K1 & K2). split; auto. rewrite FOl; auto.
    + (* faces are single cycles *)
      set (psi := fun h => if h =? hA then a else if h =? hB then b else h).
      assert (QA : psi hA = a) by (unfold psi; rewrite Z.eqb_refl; auto).
      assert (QB : psi hB = b) by (unfold psi; rewrite Z.eqb_refl; destruct (Z.eqb_spec hB hA); congruence).
      assert (QO : forall h, liveH g h -> psi h = h).
      { intros h K. destruct (RO _ (LR _ K)) as [K1 K2]. unfold psi. destruct (Z.eqb_spec h hA); [congruence|]. destruct (Z.eqb_spec h hB); congruence. }
      assert (CE : forall x y, liveH m' x -> nx m' x = y -> conn (liveH m') (nx m') x y) by (intros x y Hx <-; apply conn_step; auto).
      apply orbit_transfer with (L := liveH g) (L' := liveH m') (f := nx g) (lab := fa g) (phi := fun h => h) (psi := psi) (N := heFill m'); auto.
      * apply CN.
      * apply CN.
      * intros h Hh. destruct (Z.eq_dec h b) as [->|K1]; [eapply conn_trans; apply CE; eauto|].
        destruct (Z.eq_dec h p) as [->|K2]; [rewrite Np; eapply conn_trans; apply CE; eauto|]. apply CE; auto.
      * intros x y Hx Hy Exy. right.
        assert (Q : forall z, liveH m' z -> liveH g (psi z) /\ fa g (psi z) = fa m' z /\ conn (liveH m') (nx m') z (psi z)).
        { intros z Hz. apply LH in Hz as [K|[->| ->]].
          - rewrite QO, FOl by auto. split; [auto|split; [auto|apply conn_refl]].
          - rewrite QA. auto.
          - rewrite QB. split; [auto|split; [auto|apply conn_sym, CE; auto]]. }
        destruct (Q x Hx) as (Q1 & Q2 & Q3). destruct (Q y Hy) as (Q4 & Q5 & Q6). rewrite Q2, Q5. auto.
    + (* vertex stars are single cycles *)
      set (psi := fun h => if h =? hA then a else h). set (phi := fun h => if h =? a then hA else h).
      assert (QA : psi hA = a) by (unfold psi; rewrite Z.eqb_refl; auto).
      assert (QO : forall h, liveH g h -> psi h = h).
      { intros h K. destruct (RO _ (LR _ K)) as [K1 K2]. unfold psi. destruct (Z.eqb_spec h hA); congruence. }
      assert (PA : phi a = hA) by (unfold phi; rewrite Z.eqb_refl; auto).
      assert (PO : forall h, h <> a -> phi h = h) by (intros h K; unfold phi; destruct (Z.eqb_spec h a); congruence).
      assert (CE : forall x y, liveH m' x -> nx m' (tw x) = y -> conn (liveH m') (ro m') x y) by (intros x y Hx <-; apply (conn_step (liveH m') (ro m')); auto).
      apply orbit_transfer with (L := liveH g) (L' := liveH m') (f := ro g) (lab := ve g) (phi := phi) (psi := psi) (N := heFill m'); auto.
      * intros; apply CN, CN; auto.
      * apply CN.
      * intros h Hh. unfold ro. assert (Lt := TWo _ Hh). destruct (Z.eq_dec h a) as [->|K1].
        { rewrite PA, Ta. rewrite PO by auto. apply CE; auto. rewrite TA. auto. }
        rewrite (PO h) by auto. assert (Kt : tw h <> b) by (intros Kt; apply K1, tw_inj; auto).
        destruct (Z.eq_dec (tw h) p) as [Kp|Kp]; [rewrite Kp, Np, PA; apply CE; auto; rewrite Kp; auto|].
        rewrite PO; [apply CE; auto|]. intros Kx. apply Kp. apply INJ; auto. congruence.
      * intros x y Hx Hy Exy. destruct (Z.eq_dec (ve m' x) nV) as [Kn|Kn].
        { left. assert (Q : forall z, liveH m' z -> ve m' z = nV -> z = a \/ z = hB).
          { intros z Hz Ez. apply LH in Hz as [K|[->| ->]]; auto.
            - destruct (Z.eq_dec z a); auto. rewrite VOl in Ez by auto. assert (KK := LVR _ (cn_ve _ CN _ K)). clear -Ez KK. lia.
            - rewrite VA in Ez. clear -Ez RvA. lia. }
          assert (Q2 : forall z, liveH m' z -> ve m' z = nV -> conn (liveH m') (ro m') a z).
          { intros z Hz Ez. destruct (Q z Hz Ez) as [->| ->]; [apply conn_refl|]. apply CE; auto. }
          eapply conn_trans; [apply conn_sym; apply Q2; auto|apply Q2; auto; congruence]. }
        right. assert (Q : forall z, liveH m' z -> ve m' z <> nV -> liveH g (psi z) /\ ve g (psi z) = ve m' z /\ conn (liveH m') (ro m') z (phi (psi z))).
        { intros z Hz Ez. apply LH in Hz as [K|[->| ->]].
          - assert (z <> a) by (intros ->; auto). rewrite QO, VOl, PO by auto. split; [auto|split; [auto|apply conn_refl]].
          - rewrite QA, PA. split; [auto|split; [auto|apply conn_refl]].
          - congruence. }
        destruct (Q x Hx Kn) as (Q1 & Q2 & Q3). destruct (Q y Hy) as (Q4 & Q5 & Q6); [congruence|]. rewrite Q2, Q5. auto.
    + intros h Hh Hm. unfold ext. rewrite F4. apply LH in Hh as [K|[->| ->]].
      * rewrite FOl by auto. apply CN; auto.
      * rewrite FA. exact Iab.
      * exfalso. unfold hB in Hm. assert (hA mod 2 = 0) by (clear -T6 T7; unfold hA; lia). clear - Hm H. lia.
    + intros h Hh Hx. unfold ext in Hx. rewrite F4 in Hx. apply LH in Hh as [K|[->| ->]].
      * destruct (Z.eq_dec h a) as [->|Kh]; [rewrite Va; auto|]. rewrite FOl in Hx by auto.
        pose proof (cn_vbd _ CN h K Hx) as Kv. rewrite VOl by auto. rewrite HO; [exact Kv|apply LVR, (cn_ve _ CN); auto|right; congruence].
      * rewrite TA, FB in Hx. rewrite VA. apply H0. apply (cn_vbd _ CN); auto.
      * rewrite TB, FA in Hx. exfalso. apply Iab. exact Hx.
  - destruct SG as [G1 G2]. fold hA nV in G1, G2. split; rewrite F1, ?F3, ?F4, ?F5, ?P3, ?P4; fold hA nV.
    + intros v Hv. rewrite HOg; [|clear -Hv; lia|left; intros ->; clear -Hv RvA; lia]. assert (K := G1 v ltac:(clear -Hv; lia)). clear -K RhA. lia.
    + intros f Hf. rewrite FH. assert (K := G2 f Hf). clear -K RhA. lia.
Qed.
End InsValid.

Lemma insert_run m e : Valid m -> liveH m (eHe e) -> nx m (tw (eHe e)) <> eHe e ->
  exists m2 m' p, insertVertexAlongEdge m e = Ok (m', eHe e) /\ Alloc m m2 0 /\
    heFill m + 2 <= heCap m2 /\ vFill m + 1 <= vCap m2 /\ liveH m p /\ nx m p = eHe e /\
    InsEff (reset m2 m) m' (eHe e) p.
Proof.
  intros V L Hb. pose proof (va_cn _ V) as CN. pose proof (va_st _ V) as ST.
  set (a := eHe e) in *. set (b := tw a) in *.
  assert (Lb : liveH m b) by (apply CN; auto).
  assert (LvA : liveV m (ve m a)) by (apply CN; auto).
  unfold insertVertexAlongEdge. rewrite eIsBoundary_ok by auto. cbn [bind]. fold a. fold b.
  set (isBd := fFill m <=? fa m b).
  destruct (getNewVertex_alloc m m 0) as (m1 & E1 & A1 & Ar1 & Vh1 & C1 & F1); [apply alloc_refl; [auto|apply V]|destruct ST, LvA; lia|].
  rewrite E1. destruct (getNewEdgeTriple_alloc m m1 0 isBd A1) as (m2 & E2 & A2 & Ar2 & Hh2 & C2 & F2). rewrite E2. cbn [bind].
  injection Ar1 as X1 X2 X3 X4. injection C1 as X5 X6 X7 X8 X9 X10. injection F1 as X11 X12 X13 X14 X15 X16 X17 X18.
  injection Ar2 as Y1 Y2. injection C2 as Y5 Y6 Y7 Y8 Y9 Y10. injection F2 as Y11 Y12 Y13 Y14 Y15 Y16 Y17.
  destruct (prev_ok m V a L) as (p & Lp & Np & Fp & _ & PF).
  pose proof (al_st _ _ _ A2) as [T1 T2 T3 T4 T5 T6 T7 T8 T9].
  assert (TW : tw (heFill m1) = heFill m + 1) by (rewrite X11; apply tw_even; destruct ST; lia).
  rewrite TW.
  assert (B : forall h, liveH m h -> 0 <= h < heFill m) by (intros h [K _]; exact K).
  assert (BV : 0 <= ve m a < vFill m) by (destruct LvA; auto).
  assert (Ba := B _ L). assert (Bb := B _ Lb). assert (Bp := B _ Lp).
  assert (pb : p <> b) by (intros ->; auto).
  assert (ab : a <> b) by (intros K; apply (tw_neq a); auto).
  exists m2.
  assert (NX2 : forall h, 0 <= h < heFill m -> nx m2 h = nx m h) by (apply A2).
  assert (VE2 : forall h, 0 <= h < heFill m -> ve m2 h = ve m h) by (apply A2).
  assert (FA2 : forall h, liveH m h -> fa m2 h = fa m h) by (intros h Hh; rewrite (al_fa _ _ _ A2) by auto; clear; destruct (fFill m <=? fa m h); lia).
  assert (PX : prevOrbitFace m2 a = Ok p).
  { apply PF; [intros h Hh; rewrite next_ok by (pose proof (B _ Hh); lia); rewrite NX2 by auto; reflexivity|lia]. }
  assert (RV : 0 <= vFill m) by (clear -ST; destruct ST; lia).
  rewrite X11, X13 in *.
  assert (R1 : heFill m + 2 <= heCap m2) by (clear -T6 Y11; lia).
  assert (R2 : vFill m + 1 <= vCap m2) by (clear -T8 Y13; lia).
  assert (BF1 := liveFL_bnd m V _ (cn_fa _ CN _ L)). assert (BF2 := liveFL_bnd m V _ (cn_fa _ CN _ Lb)).
  assert (Fa2 := FA2 _ L). assert (Fb2 := FA2 _ Lb). assert (Na2 := NX2 _ Ba). assert (Nb2 := NX2 _ Bb). assert (Va2 := VE2 _ Ba). assert (Vb2 := VE2 _ Bb).
  assert (Np2 := NX2 _ Bp).
  set (hA := heFill m) in *. set (nV := vFill m) in *.
  assert (BND : 0 <= a < zlen (heNext m2) /\ 0 <= a < zlen (heVertex m2) /\ 0 <= a < zlen (heFace m2) /\
     0 <= b < zlen (heNext m2) /\ 0 <= b < zlen (heVertex m2) /\ 0 <= b < zlen (heFace m2) /\
     0 <= p < zlen (heNext m2) /\ 0 <= hA < zlen (heNext m2) /\ 0 <= hA < zlen (heVertex m2) /\ 0 <= hA < zlen (heFace m2) /\
     0 <= hA + 1 < zlen (heNext m2) /\ 0 <= hA + 1 < zlen (heVertex m2) /\ 0 <= hA + 1 < zlen (heFace m2) /\
     0 <= nV < zlen (vHalfedge m2) /\ 0 <= ve m a < zlen (vHalfedge m2)).
  { clear -T1 T2 T3 T4 T5 T6 R1 R2 Ba Bb Bp BV RV. lia. }
  eexists _, p. split.
  { do 2 (rewrite next_ok by (clear -BND; lia); cbn [bind]). rewrite PX. cbn [bind].
    do 2 (rewrite faceOf_ok by (clear -BND; lia); cbn [bind]). rewrite vertexOf_ok by (clear -BND; lia). cbn [bind].
    rewrite Va2, Nb2, Fa2, Fb2.
    rewrite setVHe_ok by (clear -BND; lia). cbn [bind].
    do 2 (rewrite setNext_ok by (clear -BND; bnd); cbn [bind]; rewrite setVertex_ok by (clear -BND; bnd); cbn [bind]; rewrite setFace_ok by (clear -BND; bnd); cbn [bind]).
    do 2 (rewrite setNext_ok by (clear -BND; bnd); cbn [bind]). rewrite setVertex_ok by (clear -BND; bnd); cbn [bind].
    rewrite vHe_ok by (clear -BND; bnd); cbn [bind]. rewrite setVHe_if_ok by (clear -BND; bnd). cbn [bind]. reflexivity. }
  split; [exact A2|]. split; [exact R1|]. split; [exact R2|]. split; [exact Lp|]. split; [exact Np|].
  assert (VV : vh m2 (ve m a) = vh m (ve m a)) by (apply A2; auto).
  assert (SH : forall x, 0 <= x < hA -> x <> hA /\ x <> hA + 1) by (clear; intros; lia).
  assert (SHa := SH _ Ba). assert (SHb := SH _ Bb). assert (SHp := SH _ Bp).
  assert (VN : ve m a <> nV) by (clear -BV; lia).
  assert (HH : hA <> hA + 1) by (clear; lia).
  assert (EQ : forall x y, x <> y -> (x =? y) = false) by (intros x y K; apply Z.eqb_neq; exact K).
  assert (EQ2 : forall x y, y <> x -> (x =? y) = false) by (intros x y K; apply Z.eqb_neq; auto).
  assert (TA : tw (heFill (reset m2 m)) = hA + 1) by exact TW.
  assert (VX : vh (with_vertex (with_next (with_next (with_face (with_vertex (with_next (with_face (with_vertex (with_next (with_vhe m2 nV a) hA a) hA (ve m a)) hA (fa m a)) (hA + 1) (nx m b)) (hA + 1) nV) (hA + 1) (fa m b)) b (hA + 1)) p hA) a nV) (ve m a) = vh m (ve m a)).
  { rewrite vh_wvertex, !vh_wnext, !vh_wface, !vh_wvertex, !vh_wnext, !vh_wface, !vh_wvertex, !vh_wnext. rewrite vh_wvhe by (clear -BND; lia). rewrite EQ by auto. exact VV. }
  rewrite VX. clear VX.
  destruct SHa, SHb, SHp.
  constructor; unfold reset; proj; fold (reset m2 m); fold hA; fold nV; fold b; try (unfold lens; proj; rewrite ?zlen_updZ, ?zlen_if; reflexivity);
   change (nx (reset m2 m)) with (nx m2); change (ve (reset m2 m)) with (ve m2); change (fa (reset m2 m)) with (fa m2);
   change (vh (reset m2 m)) with (vh m2); change (fh (reset m2 m)) with (fh m2); change (fFill (reset m2 m)) with (fFill m);
   rewrite ?Va2, ?Nb2, ?Fa2, ?Fb2, ?VV.
  - fold isBd. rewrite Y5, Y6, Y7, Y8, Y9, Y10, X5, X6, X7, X8, X9, X10. reflexivity.
  - rewrite Y11, Y12, Y13, Y14, Y15, X12, X14, X15. reflexivity.
  - unfold lens, reset. proj. rewrite ?zlen_updZ, ?zlen_if, ?zlen_updZ. reflexivity.
  - clear -BND pb ab EQ EQ2 HH H H0 H1 H2 H3 H4. view. rewrite ?EQ, ?Z.eqb_refl by auto. reflexivity.
  - clear -BND pb ab EQ EQ2 HH H H0 H1 H2 H3 H4. view. rewrite ?EQ2, ?Z.eqb_refl by auto. reflexivity.
  - clear -BND pb ab EQ EQ2 HH H H0 H1 H2 H3 H4. view. rewrite ?EQ2, ?Z.eqb_refl by auto. reflexivity.
  - clear -BND pb ab EQ EQ2 HH H H0 H1 H2 H3 H4. view. rewrite ?EQ2, ?Z.eqb_refl by auto. reflexivity.
  - intros h Hh K1 K2. destruct (SH _ Hh). clear -BND pb ab EQ EQ2 HH K1 K2 H5 H6. view. rewrite ?EQ by auto. reflexivity.
  - clear -BND pb ab EQ EQ2 HH H H0 H1 H2 H3 H4. view. rewrite ?EQ2, ?Z.eqb_refl by auto. rewrite ?EQ by auto. reflexivity.
  - clear -BND pb ab EQ EQ2 HH H H0 H1 H2 H3 H4. view. rewrite ?EQ2, ?Z.eqb_refl by auto. reflexivity.
  - clear -BND pb ab EQ EQ2 HH H H0 H1 H2 H3 H4. view. rewrite ?EQ2, ?Z.eqb_refl by auto. reflexivity.
  - intros h Hh K1. destruct (SH _ Hh). clear -BND pb ab EQ EQ2 HH K1 H5 H6. view. rewrite ?EQ by auto. reflexivity.
  - clear -BND pb ab EQ EQ2 HH H H0 H1 H2 H3 H4. view. rewrite ?EQ, ?Z.eqb_refl by auto. reflexivity.
  - clear -BND pb ab EQ EQ2 HH H H0 H1 H2 H3 H4. view. rewrite ?EQ, ?Z.eqb_refl by auto. reflexivity.
  - intros h Hh. destruct (SH _ Hh). clear -BND pb ab EQ EQ2 HH H5 H6. view. rewrite ?EQ by auto. reflexivity.
  - clear -BND VN EQ EQ2. view. rewrite (EQ2 nV) by auto. rewrite andb_false_r, Z.eqb_refl. reflexivity.
  - intros K. rewrite K. clear -BND VN EQ EQ2. view. rewrite !Z.eqb_refl. reflexivity.
  - intros v Kv K.
    assert (K2 : (vh m (ve m a) =? a) && (v =? ve m a) = false).
    { destruct (Z.eqb_spec v (ve m a)) as [->|]; [|apply andb_false_r]. rewrite VV in K. destruct K as [K|K]; [congruence|]. rewrite EQ by auto. reflexivity. }
    clear -BND VN EQ EQ2 K2 Kv. view. rewrite K2. rewrite EQ by auto. reflexivity.
Qed.
