(** ManifoldSurfaceMesh::connectVertices *)
From Verif Require Import Base MeshModel MeshSpec MeshBase MeshExec MeshOrbit MeshAlloc MeshFlip MeshInsert MeshOpSpec.
Open Scope Z_scope.

Definition inl (h : Z) (l : list Z) : bool := existsb (Z.eqb h) l.
Lemma inl_In h l : inl h l = true <-> In h l.
Proof. unfold inl. rewrite existsb_exists. split; [intros (x & H & K); apply Z.eqb_eq in K; subst; auto|]. intros H. exists h. split; [auto|apply Z.eqb_refl]. Qed.
Lemma inl_nIn h l : inl h l = false <-> ~ In h l.
Proof. pose proof (inl_In h l). destruct (inl h l); split; intros; try tauto; try discriminate. intros K. apply H in K. discriminate. Qed.

Lemma chain_reach_end f a l b x : chain f a l b -> In x l -> reach f x b.
Proof.
  revert a x; induction l as [|y t IH]; simpl; [tauto|]. intros a x (-> & H) [->|Hin]; [|eauto].
  destruct t as [|z t]; [simpl in H; subst; apply reach_step|]. apply reach_trans with (f x); [apply reach_step|]. apply IH with (f x); auto. destruct H as [-> _]. left; auto.
Qed.
Lemma cycle_orbit f s l x y : chain f s l s -> In x l -> In y l -> reach f x y.
Proof. intros C Hx Hy. apply reach_trans with s; [eapply chain_reach_end; eauto|eapply chain_In_reach; eauto]. Qed.

Lemma NoDup_app_l {A} (l r : list A) : NoDup (l ++ r) -> NoDup l.
Proof. induction l as [|x t IH]; cbn; intros H; [constructor|]. apply NoDup_cons_iff in H as [H1 H2]. constructor; auto. intros K; apply H1, in_or_app; auto. Qed.
Lemma NoDup_app_r {A} (l r : list A) : NoDup (l ++ r) -> NoDup r.
Proof. induction l as [|x t IH]; cbn; auto. intros H. apply NoDup_cons_iff in H. tauto. Qed.

Lemma chain_redirect f f' s l e n : chain f s l e -> l <> [] -> NoDup l -> (forall x, In x l -> x <> last l INVALID -> f' x = f x) -> f' (last l INVALID) = n ->
  chain f' s l n.
Proof.
  revert s; induction l as [|y t IH]; [congruence|]. intros s [-> C] _ ND H E. destruct t as [|z t].
  - cbn in E. split; auto.
  - apply NoDup_cons_iff in ND as [N1 N2]. assert (Hl : z :: t <> []) by discriminate.
    destruct (chain_last _ _ _ _ Hl C) as [_ K]. change (last (s :: z :: t) INVALID) with (last (z :: t) INVALID) in *.
    split; auto. rewrite H by (cbn; auto; intros X; apply N1; rewrite X; exact K). apply IH; auto. intros x Hx. apply H. right; auto.
Qed.

(** relabelling a stretch of a face *)
Lemma relabel_ok : forall l fuel m curr stop f, chain (nx m) curr l stop -> ~ In stop l -> (length l <= fuel)%nat ->
  (forall x, In x l -> 0 <= x < zlen (heNext m) /\ 0 <= x < zlen (heFace m)) ->
  exists F, relabelFace fuel m curr stop f = Ok (set_heFace m F) /\ zlen F = zlen (heFace m) /\
    forall h, getZ F h = if inl h l then f else fa m h.
Proof.
  induction l as [|y t IH]; intros fuel m curr stop f C NI Hf B.
  - cbn in C. subst curr. exists (heFace m). unfold relabelFace. destruct fuel; rewrite Z.eqb_refl; (split; [destruct m; reflexivity|auto]).
  - destruct C as [-> C]. destruct fuel as [|fuel]; [cbn in Hf; lia|]. cbn [relabelFace].
    destruct (Z.eqb_spec curr stop) as [->|Hn]; [exfalso; apply NI; left; auto|].
    destruct (B curr (or_introl eq_refl)) as [B1 B2]. rewrite setFace_ok by auto. cbn [bind]. rewrite next_ok by exact B1. cbn [bind].
    destruct (IH fuel (with_face m curr f) (nx m curr) stop f) as (F & R & Z1 & G).
    + exact C.
    + intros K. apply NI. right; auto.
    + cbn in Hf. lia.
    + intros x Hx. cbn. rewrite zlen_updZ. apply B. right; auto.
    + exists F. split; [exact R|]. split; [rewrite Z1; cbn; apply zlen_updZ|]. intros h. rewrite G. rewrite fa_wface by auto. cbn [inl existsb].
      unfold inl. destruct (existsb (Z.eqb h) t); [rewrite orb_true_r; auto|]. rewrite orb_false_r. reflexivity.
Qed.

(** effect of connectVertices; g is the mesh after growing storage, l1 the halfedges from a (incl.) to b (excl.) *)
Record ConEff (g m' : mesh) (a b p q : Z) (l1 : list Z) : Prop := {
  ce_cnt : (nHalfedges m', nInterior m', nEdges m', nVertices m', nFaces m', nLoops m') =
           (nHalfedges g + 2, nInterior g + 2, nEdges g + 1, nVertices g, nFaces g + 1, nLoops g);
  ce_fill : (heFill m', eFill m', vFill m', fFill m', bFill m') = (heFill g + 2, eFill g + 1, vFill g, fFill g + 1, bFill g);
  ce_cap : (heCap m', eCap m', vCap m', fCap m') = (heCap g, eCap g, vCap g, fCap g);
  ce_lens : lens m' = lens g;
  ce_nA : nx m' (heFill g) = b; ce_nB : nx m' (heFill g + 1) = a;
  ce_np : nx m' p = heFill g; ce_nq : nx m' q = heFill g + 1;
  ce_nx : forall h, 0 <= h < heFill g -> h <> p -> h <> q -> nx m' h = nx g h;
  ce_vA : ve m' (heFill g) = ve g a; ce_vB : ve m' (heFill g + 1) = ve g b;
  ce_ve : forall h, 0 <= h < heFill g -> ve m' h = ve g h;
  ce_fA : fa m' (heFill g) = fa g a; ce_fB : fa m' (heFill g + 1) = fFill g;
  ce_fa : forall h, 0 <= h < heFill g -> fa m' h = if inl h l1 then fFill g else fa g h;
  ce_vh : forall v, vh m' v = vh g v;
  ce_fh1 : fh m' (fa g a) = heFill g; ce_fh2 : fh m' (fFill g) = heFill g + 1;
  ce_fh : forall f, f <> fa g a -> f <> fFill g -> fh m' f = fh g f }.

Section ConValid.
Context (g m' : mesh) (a b p q : Z) (l1 l2 : list Z) (V : Valid g).
Context (La : liveH g a) (Lb : liveH g b) (Lp : liveH g p) (Np : nx g p = a) (Lq : liveH g q) (Nq : nx g q = b).
Context (Fab : fa g a = fa g b) (Ia : ~ ext g a) (ab : a <> b).
Context (C1 : chain (nx g) a l1 b) (C2 : chain (nx g) b l2 a) (ND : NoDup (l1 ++ l2)) (CM : forall x, In x (l1 ++ l2) <-> liveH g x /\ fa g x = fa g a).
Context (Room : heFill g + 2 <= heCap g /\ fFill g + 1 + bFill g <= fCap g).
Context (E : ConEff g m' a b p q l1).

Lemma con_valid : Valid m'.
Proof.
  destruct V as [ST CT CN SG]. destruct E as [Cn Fl Cp Le NA NB Npp Nqq NO VA VB VO FA FB FO HV H1 H2 HO].
  injection Cn as D1 D2 D3 D4 D5 D6. injection Fl as F1 F2 F3 F4 F5. injection Cp as P1 P2 P3 P4.
  unfold lens in Le. injection Le as Z1 Z2 Z3 Z4 Z5. destruct Room as [Rm1 Rm2].
  destruct ST as [T1 T2 T3 T4 T5 T6 T7 T8 T9].
  set (hA := heFill g) in *. set (hB := hA + 1) in *. set (fN := fFill g) in *.
  assert (EvA : hA mod 2 = 0) by (clear -T6 T7; unfold hA; lia).
  assert (TA : tw hA = hB) by (apply tw_even; auto). assert (TB : tw hB = hA) by (rewrite <- TA; apply tw_tw).
  assert (LR : forall h, liveH g h -> 0 <= h < hA) by (intros h [K _]; exact K).
  assert (Ra := LR _ La). assert (Rb := LR _ Lb). assert (Rp := LR _ Lp). assert (Rq := LR _ Lq).
  assert (pq : p <> q) by congruence.
  assert (NAB : hA <> hB) by (clear; unfold hB; lia).
  assert (RO : forall h, 0 <= h < hA -> h <> hA /\ h <> hB) by (clear; unfold hB; intros; lia).
  assert (RhA : 0 <= hA) by (clear -Ra; lia).
  assert (FAR : 0 <= fa g a < fN). { destruct (cn_fa _ CN _ La) as [[K _]|[K _]]; [exact K|]. exfalso. apply Ia. unfold ext. fold fN. clear -K T9. unfold fN in *. lia. }
  assert (RfN : 0 <= fN) by (clear -T9; unfold fN; lia).
  assert (LRn : forall h, liveH g h -> h <> -1) by (intros h Hh; pose proof (LR h Hh); lia).
  (* liveness *)
  assert (NXL : forall h, 0 <= h < hA -> (nx m' h = -1 <-> nx g h = -1)).
  { intros h Hh. destruct (Z.eq_dec h p) as [->|K1]; [rewrite Npp, Np; clear -RhA Ra; lia|].
    destruct (Z.eq_dec h q) as [->|K2]; [rewrite Nqq, Nq; unfold hB; clear -RhA Rb; lia|]. rewrite NO by auto. tauto. }
  assert (LH : forall h, liveH m' h <-> (liveH g h \/ h = hA \/ h = hB)).
  { intros h. unfold liveH. rewrite F1. fold hA. split.
    - intros [K1 K2]. assert (0 <= h < hA \/ h = hA \/ h = hB) as [K|K] by (unfold hB; clear -K1; lia); [|auto]. left. split; auto.
      intros K3. apply K2. apply NXL; auto.
    - intros [[K1 K2]|[->| ->]].
      + split; [fold hA in K1; clear -K1; lia|]. rewrite NXL by auto. auto.
      + rewrite NA. split; [clear -RhA; lia|auto].
      + rewrite NB. split; [unfold hB; clear -RhA; lia|auto]. }
  assert (LHo : forall h, liveH g h -> liveH m' h) by (intros; apply LH; auto).
  assert (LHA : liveH m' hA) by (apply LH; auto). assert (LHB : liveH m' hB) by (apply LH; auto).
  assert (LV : forall v, liveV m' v <-> liveV g v). { intros v. unfold liveV. rewrite F3, HV. tauto. }
  assert (FHa : fh g (fa g a) <> -1) by (destruct (cn_fa _ CN _ La) as [[_ K]|[_ K]]; exact K).
  assert (LFf : forall f, liveF m' f <-> (liveF g f \/ f = fN)).
  { intros f. unfold liveF. rewrite F4. fold fN. destruct (Z.eq_dec f fN) as [->|Kf].
    - rewrite H2. split; auto. intros _. unfold hB. clear -RfN RhA. lia.
    - destruct (Z.eq_dec f (fa g a)) as [->|Ka].
      + rewrite H1. split; [intros _; left; auto|]. intros _. clear -FAR RhA. lia.
      + rewrite HO by auto. split; [intros [K1 K2]; left; split; auto; clear -K1 Kf; lia|]. intros [[K1 K2]|K]; [split; auto; clear -K1; lia|contradiction]. }
  assert (LFl : forall f, liveL m' f <-> liveL g f).
  { intros f. unfold liveL. rewrite F5, P4. split; intros [K1 K2]; (split; [exact K1|]).
    - rewrite <- HO; auto; unfold fN in *; clear -K1 FAR T9 Rm2; lia.
    - rewrite HO; auto; unfold fN in *; clear -K1 FAR T9 Rm2; lia. }
  assert (LF : forall f, liveFL m' f <-> (liveFL g f \/ f = fN)). { intros f. unfold liveFL. rewrite LFf, LFl. tauto. }
  assert (TWo : forall h, liveH g h -> liveH g (tw h)) by (apply CN).
  assert (NOl : forall h, liveH g h -> h <> p -> h <> q -> nx m' h = nx g h) by (intros; apply NO; auto).
  assert (VOl : forall h, liveH g h -> ve m' h = ve g h) by (intros; apply VO; auto).
  assert (FOl : forall h, liveH g h -> fa m' h = if inl h l1 then fN else fa g h) by (intros; apply FO; auto).
  assert (CTW : forall h, liveH m' h -> liveH m' (tw h)).
  { intros h Hh. apply LH in Hh as [K|[->| ->]]; [apply LHo, TWo; auto|rewrite TA; auto|rewrite TB; auto]. }
  assert (CNX : forall h, liveH m' h -> liveH m' (nx m' h)).
  { intros h Hh. apply LH in Hh as [K|[->| ->]].
    - destruct (Z.eq_dec h p) as [->|K1]; [rewrite Npp; auto|]. destruct (Z.eq_dec h q) as [->|K2]; [rewrite Nqq; auto|].
      rewrite NOl by auto. apply LHo, CN; auto.
    - rewrite NA; auto.
    - rewrite NB; auto. }
  assert (INJ : forall x y, liveH g x -> liveH g y -> nx g x = nx g y -> x = y) by (apply CN).
  assert (NXr : forall h, liveH g h -> 0 <= nx g h < hA) by (intros; apply LR, CN; auto).
  assert (CINJ : forall x y, liveH m' x -> liveH m' y -> nx m' x = nx m' y -> x = y).
  { assert (OV : forall h, liveH m' h -> (h = p /\ nx m' h = hA) \/ (h = q /\ nx m' h = hB) \/ (h = hA /\ nx m' h = b) \/ (h = hB /\ nx m' h = a) \/
        (liveH g h /\ nx m' h = nx g h /\ nx g h <> a /\ nx g h <> b /\ nx g h <> hA /\ nx g h <> hB)).
    { intros h Hh. apply LH in Hh as [Hh|[->| ->]]; [|auto 6|auto 6].
      destruct (Z.eq_dec h p) as [->|K1]; [auto|]. destruct (Z.eq_dec h q) as [->|K2]; [auto|]. right; right; right; right.
      destruct (RO _ (NXr h Hh)). split; [auto|]. split; [auto|]. split; [intros K; apply K1, INJ; auto; congruence|]. split; [intros K; apply K2, INJ; auto; congruence|auto]. }
    destruct (RO _ Ra) as [X1 X2]. destruct (RO _ Rb) as [X3 X4].
    intros x y Hx Hy. destruct (OV x Hx) as [(-> & ->)|[(-> & ->)|[(-> & ->)|[(-> & ->)|(U1 & -> & U2 & U3 & U4 & U5)]]]];
      destruct (OV y Hy) as [(-> & ->)|[(-> & ->)|[(-> & ->)|[(-> & ->)|(W1 & -> & W2 & W3 & W4 & W5)]]]]; intros K; try reflexivity; try congruence.
    apply INJ; auto. }
  assert (RB : forall x, liveH m' x -> 0 <= x < heFill m') by (intros x [K _]; exact K).
  assert (CRL : forall h, liveH m' h -> liveH m' (ro m' h)) by (intros; apply CNX, CTW; auto).
  assert (CRI : forall x y, liveH m' x -> liveH m' y -> ro m' x = ro m' y -> x = y).
  { intros x y Hx Hy K. apply tw_inj. apply CINJ; auto. }
  (* the two cycles *)
  assert (l1n : l1 <> []) by (intros ->; apply ab; exact C1).
  assert (l2n : l2 <> []) by (intros ->; apply ab; symmetry; exact C2).
  assert (qL : last l1 INVALID = q). { destruct (chain_last _ _ _ _ l1n C1) as [K1 K2]. apply INJ; auto; [|congruence]. apply CM. apply in_or_app. auto. }
  assert (pL : last l2 INVALID = p). { destruct (chain_last _ _ _ _ l2n C2) as [K1 K2]. apply INJ; auto; [|congruence]. apply CM. apply in_or_app. auto. }
  assert (qI : In q l1). { destruct (chain_last _ _ _ _ l1n C1) as [K1 K2]. rewrite <- qL; auto. }
  assert (pI : In p l2). { destruct (chain_last _ _ _ _ l2n C2) as [K1 K2]. rewrite <- pL; auto. }
  assert (DJ : forall x, In x l1 -> In x l2 -> False).
  { intros x K1 K2. clear -ND K1 K2. induction l1 as [|y t IH]; [contradiction|]. cbn in ND. apply NoDup_cons_iff in ND as [N1 N2]. destruct K1 as [->|K1]; [apply N1, in_or_app; auto|auto]. }
  assert (aI : In a l1) by (destruct l1; [congruence|]; destruct C1 as [-> _]; left; auto).
  assert (bI : In b l2) by (destruct l2; [congruence|]; destruct C2 as [-> _]; left; auto).
  assert (L1g : forall x, In x l1 -> liveH g x) by (intros x K; apply CM, in_or_app; auto).
  assert (L2g : forall x, In x l2 -> liveH g x) by (intros x K; apply CM, in_or_app; auto).
  
  assert (ND1 : NoDup l1) by (apply NoDup_app_l in ND; auto). assert (ND2 : NoDup l2) by (apply NoDup_app_r in ND; auto).
  assert (CY1 : chain (nx m') hB (hB :: l1) hB).
  { split; auto. rewrite NB. apply (chain_redirect (nx g)) with b; auto; rewrite qL; auto. intros x K1 K2. apply NOl; auto; intros ->; eauto. }
  assert (CY2 : chain (nx m') hA (hA :: l2) hA).
  { split; auto. rewrite NA. apply (chain_redirect (nx g)) with a; auto; rewrite pL; auto. intros x K1 K2. apply NOl; auto; intros ->; eauto. }
  assert (FC1 : forall x, liveH m' x -> fa m' x = fN -> In x (hB :: l1)).
  { intros x Hx Ex. apply LH in Hx as [Hx|[->| ->]]; [|rewrite FA in Ex; clear -Ex FAR; lia|left; auto]. rewrite FOl in Ex by auto.
    destruct (inl x l1) eqn:Ei; [right; apply inl_In; auto|]. exfalso. destruct (cn_fa _ CN _ Hx) as [[K _]|[K _]]; rewrite Ex in K; unfold fN in K; clear -K T9 Rm2; lia. }
  assert (FC2 : forall x, liveH m' x -> fa m' x = fa g a -> In x (hA :: l2)).
  { intros x Hx Ex. apply LH in Hx as [Hx|[->| ->]]; [|left; auto|rewrite FB in Ex; clear -Ex FAR; lia]. rewrite FOl in Ex by auto.
    destruct (inl x l1) eqn:Ei; [clear -Ex FAR; lia|]. apply inl_nIn in Ei. right. assert (K : In x (l1 ++ l2)) by (apply CM; auto). apply in_app_or in K as [K|K]; [contradiction|auto]. }
  split.
  - split; try (clear -Z1 Z2 Z3 Z4 Z5 F1 F2 F3 F4 F5 P1 P2 P3 P4 T1 T2 T3 T4 T5 T6 T7 T8 T9 Rm1 Rm2; unfold hA, fN in *; lia).
  - destruct CT as [G1 G2 G3 G4 G5 G6].
    assert (LB1 : forall h, 0 <= h < hA -> liveHb m' h = liveHb g h).
    { intros h Hh. unfold liveHb. pose proof (NXL h Hh) as K. f_equal. clear -K. lia. }
    assert (LBA : liveHb m' hA = true) by (unfold liveHb; rewrite NA; clear -Rb; lia).
    assert (LBB : liveHb m' hB = true) by (unfold liveHb; rewrite NB; clear -Ra; lia).
    split.
    + rewrite D1, F1, G1. fold hA. rewrite countb_2 by auto. fold hB. rewrite LBA, LBB. rewrite (countb_ext (liveHb m') (liveHb g)) by auto. simpl. clear; lia.
    + rewrite D2, F1, G2. fold hA. rewrite countb_2 by auto. unfold intHb at 3 4. fold hB. rewrite LBA, LBB, FA, FB, F4. fold fN.
      rewrite (countb_ext (intHb m') (intHb g)).
      * destruct (Z.leb_spec (fN + 1) (fa g a)), (Z.leb_spec (fN + 1) fN); cbn [negb andb b2z]; clear -FAR H H0; lia.
      * intros h Hh. unfold intHb. rewrite LB1, F4 by auto. fold fN. destruct (liveHb g h) eqn:Eb; auto. cbn [andb]. f_equal.
        assert (Hl : liveH g h) by (split; auto; unfold liveHb in Eb; clear -Eb; lia).
        rewrite FO by auto. destruct (inl h l1) eqn:Ei.
        -- apply inl_In in Ei. assert (K : In h (l1 ++ l2)) by (apply in_or_app; auto). apply CM in K as [_ K]. rewrite K. clear -FAR. lia.
        -- destruct (cn_fa _ CN _ Hl) as [[K _]|[K _]]; clear -K T9 Rm2; unfold fN in *; lia.
    + rewrite D3, F2, G3. rewrite countb_S by (clear -T6 T7; lia). replace (2 * eFill g) with hA by (symmetry; unfold hA; exact (eq_sym (proj1 T7))). rewrite LBA. cbn [b2z]. f_equal.
      apply countb_ext. intros e He. symmetry. apply LB1. clear -T7 He; unfold hA; lia.
    + rewrite D4, F3, G4. apply countb_ext. intros v _. unfold liveVb. rewrite HV. auto.
    + rewrite D5, F4, G5. fold fN. rewrite countb_S by auto. replace (liveFb m' fN) with true by (unfold liveFb; rewrite H2; unfold hB; clear -RhA; lia). cbn [b2z]. f_equal.
      apply countb_ext. intros f Hf. unfold liveFb. destruct (Z.eq_dec f (fa g a)) as [->|Kf]; [rewrite H1; clear -FHa RhA; lia|]. rewrite HO; auto. clear -Hf. lia.
    + rewrite D6, F5, P4, G6. apply countb_ext. intros i Hi. unfold liveFb. rewrite HO; auto; clear -Hi FAR Rm2; unfold fN in *; lia.
  - split; auto.
    + intros h Hh. apply LV. apply LH in Hh as [K|[->| ->]]; [rewrite VOl by auto; apply CN; auto|rewrite VA; apply CN; auto|rewrite VB; apply CN; auto].
    + intros h Hh. apply LF. apply LH in Hh as [K|[->| ->]]; [rewrite FOl by auto; destruct (inl h l1); auto; left; apply CN; auto|rewrite FA; left; apply CN; auto|rewrite FB; auto].
    + (* tip to tail *)
      intros h Hh. apply LH in Hh as [K|[->| ->]].
      * assert (Kt := TWo _ K). rewrite (VOl (tw h)) by auto. rewrite <- (cn_vnx _ CN) by auto.
        destruct (Z.eq_dec h p) as [->|K1]; [rewrite Npp, VA, Np; auto|]. destruct (Z.eq_dec h q) as [->|K2]; [rewrite Nqq, VB, Nq; auto|].
        rewrite NOl by auto. apply VOl. apply CN; auto.
      * rewrite NA, TA, VB. auto.
      * rewrite NB, TB, VA. auto.
    + (* one face *)
      intros h Hh. apply LH in Hh as [K|[->| ->]].
      * destruct (Z.eq_dec h p) as [->|K1].
        { rewrite Npp, FA, FOl by auto. destruct (inl p l1) eqn:Ei; [apply inl_In in Ei; exfalso; eauto|]. rewrite <- Np. apply (cn_fnx _ CN); auto. }
        destruct (Z.eq_dec h q) as [->|K2].
        { rewrite Nqq, FB, FOl by auto. destruct (inl q l1) eqn:Ei; auto. apply inl_nIn in Ei. contradiction. }
        rewrite NOl by auto. assert (Kn : liveH g (nx g h)) by (apply CN; auto). rewrite !FOl by auto. rewrite (cn_fnx _ CN) by auto.
        destruct (inl h l1) eqn:Ei.
        { apply inl_In in Ei. destruct (chain_step_In _ _ _ _ _ C1 Ei) as [Kx|Kx]; [exfalso; apply K2, INJ; auto; congruence|]. rewrite (proj2 (inl_In _ _) Kx). auto. }
        destruct (inl (nx g h) l1) eqn:Ej; auto. exfalso. apply inl_nIn in Ei. apply Ei. apply inl_In in Ej.
        assert (Kx : In h (l1 ++ l2)). { apply CM. split; auto. rewrite <- (cn_fnx _ CN) by auto. apply CM, in_or_app. auto. }
        apply in_app_or in Kx as [Kx|Kx]; auto. exfalso. destruct (chain_step_In _ _ _ _ _ C2 Kx) as [Ky|Ky]; [apply K1, INJ; auto; congruence|eauto].
      * rewrite NA, FA, FOl by auto. destruct (inl b l1) eqn:Ei; auto. apply inl_In in Ei. exfalso; eauto.
      * rewrite NB, FB, FOl by auto. rewrite (proj2 (inl_In _ _) aI). auto.
    + intros v Hv. apply LV in Hv. rewrite HV. destruct (cn_vh _ CN v Hv) as (K1 & K2). split; auto. rewrite VOl; auto.
    + intros f Hf. destruct (Z.eq_dec f (fa g a)) as [->|Ka]; [rewrite H1; auto|]. apply LF in Hf as [Hf| ->]; [|rewrite H2; auto].
      assert (Kf : f <> fN). { intros ->. destruct Hf as [[K _]|[K _]]; clear -K Rm2; unfold fN in *; lia. }
      rewrite HO by auto. destruct (cn_fh _ CN f Hf) as (K1 & K2). split; auto. rewrite FOl by auto.
      destruct (inl (fh g f) l1) eqn:Ei; auto. apply inl_In in Ei. exfalso. apply Ka. rewrite <- K2. apply CM, in_or_app; auto.
    + (* faces *)
      intros x y Hx Hy Exy. destruct (Z.eq_dec (fa m' x) fN) as [K1|K1].
      { eapply cycle_orbit; [exact CY1|apply FC1; auto|apply FC1; auto; congruence]. }
      destruct (Z.eq_dec (fa m' x) (fa g a)) as [K2|K2].
      { eapply cycle_orbit; [exact CY2|apply FC2; auto|apply FC2; auto; congruence]. }
      assert (OLD : forall z, liveH m' z -> fa m' z = fa m' x -> liveH g z /\ fa g z = fa m' x).
      { intros z Hz Ez. apply LH in Hz as [K|[->| ->]]; [|congruence|congruence]. rewrite FOl in Ez by auto. destruct (inl z l1); [congruence|]. auto. }
      destruct (OLD x Hx eq_refl) as [Gx Fx]. destruct (OLD y Hy (eq_sym Exy)) as [Gy Fy].
      apply (reach_ext (fun z => liveH g z /\ fa g z = fa m' x)) with (f := nx g); auto; [| |apply CN; auto; congruence].
      * intros z [Gz Fz]. split; [apply CN; auto|]. rewrite (cn_fnx _ CN); auto.
      * intros z [Gz Fz]. apply NOl; auto; intros ->.
        -- apply K2. rewrite <- Fz. apply CM, in_or_app; auto.
        -- apply K2. rewrite <- Fz. apply CM, in_or_app; auto.
    + (* vertices *)
      set (psi := fun h => if h =? hA then a else if h =? hB then b else h).
      assert (QA : psi hA = a) by (unfold psi; rewrite Z.eqb_refl; auto).
      assert (QB : psi hB = b) by (unfold psi; rewrite Z.eqb_refl; destruct (Z.eqb_spec hB hA); congruence).
      assert (QO : forall h, liveH g h -> psi h = h).
      { intros h K. destruct (RO _ (LR _ K)) as [K1 K2]. unfold psi. destruct (Z.eqb_spec h hA); [congruence|]. destruct (Z.eqb_spec h hB); congruence. }
      assert (CE : forall x y, liveH m' x -> nx m' (tw x) = y -> conn (liveH m') (ro m') x y) by (intros x y Hx <-; apply (conn_step (liveH m') (ro m')); auto).
      apply orbit_transfer with (L := liveH g) (L' := liveH m') (f := ro g) (lab := ve g) (phi := fun h => h) (psi := psi) (N := heFill m'); auto.
      * intros; apply CN, CN; auto.
      * apply CN.
      * intros h Hh. unfold ro. assert (Lt := TWo _ Hh).
        destruct (Z.eq_dec (tw h) p) as [Kp|Kp].
        { rewrite Kp, Np. eapply conn_trans; [apply (CE h hA); auto; rewrite Kp; auto|]. apply CE; auto. rewrite TA; auto. }
        destruct (Z.eq_dec (tw h) q) as [Kq|Kq].
        { rewrite Kq, Nq. eapply conn_trans; [apply (CE h hB); auto; rewrite Kq; auto|]. apply CE; auto. rewrite TB; auto. }
        apply CE; auto.
      * intros x y Hx Hy Exy. right.
        assert (Q : forall z, liveH m' z -> liveH g (psi z) /\ ve g (psi z) = ve m' z /\ conn (liveH m') (ro m') z (psi z)).
        { intros z Hz. apply LH in Hz as [K|[->| ->]].
          - rewrite QO, VOl by auto. split; [auto|split; [auto|apply conn_refl]].
          - rewrite QA. split; [auto|split; [auto|apply CE; auto; rewrite TA; auto]].
          - rewrite QB. split; [auto|split; [auto|apply CE; auto; rewrite TB; auto]]. }
        destruct (Q x Hx) as (Q1 & Q2 & Q3). destruct (Q y Hy) as (Q4 & Q5 & Q6). rewrite Q2, Q5. auto.
    + intros h Hh Hm. unfold ext. rewrite F4. fold fN. apply LH in Hh as [K|[->| ->]].
      * pose proof (cn_ebd _ CN h K Hm) as Kx. unfold ext in Kx. fold fN in Kx. rewrite FOl by auto. destruct (inl h l1); clear -Kx; lia.
      * rewrite FA. clear -FAR. lia.
      * rewrite FB. clear. lia.
    + intros h Hh Hx. unfold ext in Hx. rewrite F4 in Hx. fold fN in Hx. apply LH in Hh as [K|[->| ->]].
      * rewrite HV, VOl by auto. apply (cn_vbd _ CN); auto. unfold ext. fold fN. rewrite FOl in Hx by auto. destruct (inl (tw h) l1); clear -Hx; lia.
      * rewrite TA, FB in Hx. clear -Hx. lia.
      * rewrite TB, FA in Hx. clear -Hx FAR. lia.
  - destruct SG as [G1 G2]. fold hA fN in G1, G2. split; rewrite F1, ?F3, ?F4, ?F5, ?P3, ?P4; fold hA fN.
    + intros v Hv. rewrite HV. assert (K := G1 v Hv). clear -K RhA. lia.
    + intros f Hf. rewrite HO; [|intros ->; clear -Hf FAR; lia|clear -Hf; lia]. assert (K := G2 f ltac:(clear -Hf; lia)). clear -K RhA. lia.
Qed.
End ConValid.

Lemma reset_side m m1 s h : Alloc m m1 s -> liveH m h -> side (reset m1 m) h = side m h.
Proof.
  intros A H. unfold side. rewrite (reset_fa m m1 s A) by auto. change (fFill (reset m1 m)) with (fFill m). change (fCap (reset m1 m)) with (fCap m1).
  rewrite (al_cap _ _ _ A). pose proof (al_s _ _ _ A). destruct (Z.leb_spec (fFill m) (fa m h)).
  - destruct (Z.leb_spec (fFill m) (fa m h + s)); [f_equal|]; lia.
  - destruct (Z.leb_spec (fFill m) (fa m h)); [lia|auto].
Qed.
Lemma reset_liveBL m m1 s i : Stored m -> Alloc m m1 s -> (liveBL (reset m1 m) i <-> liveBL m i).
Proof.
  intros ST A. unfold liveBL. change (bFill (reset m1 m)) with (bFill m). change (fCap (reset m1 m)) with (fCap m1). change (fh (reset m1 m)) with (fh m1).
  rewrite (al_cap _ _ _ A). replace (fCap m + s - 1 - i) with (fCap m - 1 - i + s) by lia.
  split; intros [K1 K2]; (split; [auto|]); [rewrite <- (al_lh _ _ _ A) by lia|rewrite (al_lh _ _ _ A) by lia]; auto.
Qed.

(** the two chains a face is cut into *)
Lemma split_cycle m a b : Valid m -> liveH m a -> liveH m b -> fa m a = fa m b -> a <> b ->
  exists l1 l2, chain (nx m) a l1 b /\ chain (nx m) b l2 a /\ NoDup (l1 ++ l2) /\ (forall x, In x (l1 ++ l2) <-> liveH m x /\ fa m x = fa m a) /\
    l1 <> [] /\ l2 <> [] /\ ~ In b l1 /\ (length (l1 ++ l2) <= Z.to_nat (heFill m))%nat.
Proof.
  intros V La Lb F ab. destruct (face_cycle m V a La) as (l & Hl & C & ND & R & B).
  assert (Ib : In b l) by (apply R; auto). apply in_split in Ib as (l1 & l2 & ->). apply chain_app in C as (x & C1 & C2). destruct C2 as [-> C2].
  exists l1, (x :: l2). split; auto. split; [split; auto|]. split; [auto|]. split; [auto|].
  split; [intros ->; apply ab; exact C1|]. split; [discriminate|]. split.
  { intros K. apply NoDup_remove_2 in ND. apply ND, in_or_app. auto. }
  clear -B. lia.
Qed.

Lemma connect_run m a b : Valid m -> NoDeadLoops m -> liveH m a -> liveH m b -> fa m a = fa m b -> ~ ext m a -> a <> b -> nx m a <> b -> nx m b <> a ->
  exists m2 s m' p q l1 l2, connectVertices m a b = Ok (m', heFill m) /\ Alloc m m2 s /\
    heFill m + 2 <= heCap m2 /\ fFill m + 1 + bFill m <= fCap m2 /\ liveH m p /\ nx m p = a /\ liveH m q /\ nx m q = b /\
    chain (nx m) a l1 b /\ chain (nx m) b l2 a /\ NoDup (l1 ++ l2) /\ (forall x, In x (l1 ++ l2) <-> liveH m x /\ fa m x = fa m a) /\
    ConEff (reset m2 m) m' a b p q l1.
Proof.
  intros V ND0 La Lb F Ia ab nab nba. pose proof (va_cn _ V) as CN. pose proof (va_st _ V) as ST.
  destruct (prev_ok m V a La) as (p & Lp & Np & Fp & Pp & _). destruct (prev_ok m V b Lb) as (q & Lq & Nq & Fq & Pq & _).
  destruct (split_cycle m a b V La Lb F ab) as (l1 & l2 & C1 & C2 & ND & R & n1 & n2 & nb & Bl).
  assert (B : forall h, liveH m h -> 0 <= h < heFill m) by (intros h [K _]; exact K).
  assert (Ba := B _ La). assert (Bb := B _ Lb). assert (Bp := B _ Lp). assert (Bq := B _ Lq).
  assert (FAR : 0 <= fa m a < fFill m). { pose proof (st_f _ ST) as KS. destruct (cn_fa _ CN _ La) as [[K _]|[K _]]; [exact K|]. exfalso. apply Ia. unfold ext. clear -K KS. lia. }
  destruct (getNewEdgeTriple_alloc m m 0 false (alloc_refl m ST (va_sl _ V))) as (m1 & E1 & A1 & Ar1 & _ & Ct1 & F1).
  injection Ar1 as X1 X2. injection Ct1 as X5 X6 X7 X8 X9 X10. injection F1 as X11 X12 X13 X14 X15 X16 X17.
  destruct (getNewFace_alloc m m1 0 V A1) as (m2 & s & E2 & A2 & _ & Ar2 & FH2 & _ & Ct2 & F2); [rewrite X17; pose proof (st_f _ ST) as K; clear -K FAR; lia|rewrite X10, X15; exact ND0|].
  injection Ar2 as Y1 Y2 Y3. injection Ct2 as Y5 Y6 Y7 Y8 Y9 Y10. injection F2 as Y11 Y12 Y13 Y14 Y15 Y16 Y17 Y18.
  rewrite X14 in E2. clear X1 X2 Y1 Y2 Y3.
  unfold connectVertices. rewrite Pp, Pq. cbn [bind].
  do 2 (rewrite vertexOf_ok by (destruct ST; clear -st_vert Ba Bb st_he; lia); cbn [bind]).
  do 2 (rewrite faceOf_ok by (destruct ST; clear -st_face Ba Bb st_he; lia); cbn [bind]).
  rewrite <- F, Z.eqb_refl.
  assert (EQ : forall x y, x <> y -> (x =? y) = false) by (intros x y K; apply Z.eqb_neq; exact K).
  rewrite (EQ a q), (EQ p b), (EQ a b) by (auto; intros ->; auto). cbn [guard negb andb bind]. rewrite E1. cbn [bind]. rewrite E2. cbn [bind].
  assert (TW : tw (heFill m) = heFill m + 1) by (apply tw_even; destruct ST; clear -st_edge; lia). rewrite TW.
  pose proof (al_st _ _ _ A2) as [T1 T2 T3 T4 T5 T6 T7 T8 T9].
  assert (R1 : heFill m + 2 <= heCap m2) by (clear -T6 Y11 X11; lia).
  assert (R2 : fFill m + 1 + bFill m <= fCap m2) by (clear -T9 Y14 Y15 X14 X15; lia).
  assert (NX2 : forall h, 0 <= h < heFill m -> nx m2 h = nx m h) by (apply A2).
  assert (VE2 : forall h, 0 <= h < heFill m -> ve m2 h = ve m h) by (apply A2).
  assert (BF : 0 <= bFill m) by (pose proof (st_f _ ST) as K; clear -K; lia).
  set (hA := heFill m) in *. set (fN := fFill m) in *.
  assert (BND : 0 <= a < zlen (heNext m2) /\ 0 <= b < zlen (heNext m2) /\ 0 <= a < zlen (heFace m2) /\ 0 <= a < zlen (heVertex m2) /\ 0 <= b < zlen (heVertex m2) /\
     0 <= p < zlen (heNext m2) /\ 0 <= q < zlen (heNext m2) /\ 0 <= hA < zlen (heNext m2) /\ 0 <= hA < zlen (heVertex m2) /\ 0 <= hA < zlen (heFace m2) /\
     0 <= hA + 1 < zlen (heNext m2) /\ 0 <= hA + 1 < zlen (heVertex m2) /\ 0 <= hA + 1 < zlen (heFace m2) /\
     0 <= fN < zlen (fHalfedge m2) /\ 0 <= fa m a < zlen (fHalfedge m2)).
  { clear -T1 T2 T3 T4 T5 T6 R1 R2 Ba Bb Bp Bq FAR BF. lia. }
  rewrite setFHe_ok by (clear -BND; bnd). cbn [bind]. rewrite setFHe_ok by (clear -BND; bnd). cbn [bind].
  do 2 (rewrite setNext_ok by (clear -BND; bnd); cbn [bind]; rewrite setVertex_ok by (clear -BND; bnd); cbn [bind]; rewrite setFace_ok by (clear -BND; bnd); cbn [bind]).
  do 2 (rewrite setNext_ok by (clear -BND; bnd); cbn [bind]).
  match goal with |- context [relabelFace (loopFuel ?x) ?x] => set (mX := x) end.
  assert (SH : forall x, 0 <= x < hA -> x <> hA /\ x <> hA + 1) by (clear; intros; lia).
  assert (SHa := SH _ Ba). assert (SHb := SH _ Bb). assert (SHp := SH _ Bp). assert (SHq := SH _ Bq). destruct SHa, SHb, SHp, SHq.
  assert (EQ2 : forall x y, y <> x -> (x =? y) = false) by (intros x y K; apply Z.eqb_neq; auto).
  assert (HH : hA <> hA + 1) by (clear; lia).
  assert (pq : p <> q) by congruence.
  assert (FF : fa m a <> fN) by (clear -FAR; lia).
  assert (ZN : zlen (heNext mX) = zlen (heNext m2)) by (unfold mX; proj; rewrite ?zlen_updZ; reflexivity).
  assert (ZF : zlen (heFace mX) = zlen (heFace m2)) by (unfold mX; proj; rewrite ?zlen_updZ; reflexivity).
  assert (NXq : nx mX q = hA + 1) by (clear -BND pq EQ EQ2 HH H H0 H1 H2 H3 H4 H5 H6; unfold mX; view; rewrite ?Z.eqb_refl; reflexivity).
  assert (NXp : nx mX p = hA) by (clear -BND pq EQ EQ2 HH H H0 H1 H2 H3 H4 H5 H6; unfold mX; view; rewrite ?EQ, ?Z.eqb_refl by auto; reflexivity).
  assert (NXo : forall h, 0 <= h < hA -> h <> p -> h <> q -> nx mX h = nx m2 h).
  { intros h Hh K1 K2. destruct (SH _ Hh). clear -BND EQ K1 K2 H7 H8. unfold mX. view. rewrite ?EQ by auto. reflexivity. }
  assert (qL : last l1 INVALID = q). { destruct (chain_last _ _ _ _ n1 C1) as [K1 K2]. apply (cn_inj _ CN); auto; [|congruence]. apply R. apply in_or_app. auto. }
  assert (pL : last l2 INVALID = p). { destruct (chain_last _ _ _ _ n2 C2) as [K1 K2]. apply (cn_inj _ CN); auto; [|congruence]. apply R. apply in_or_app. auto. }
  assert (pI : ~ In p l1).
  { destruct (chain_last _ _ _ _ n2 C2) as [_ K2]. rewrite pL in K2. intros K1. clear -ND K1 K2. induction l1 as [|y t IH]; [contradiction|]. cbn in ND. apply NoDup_cons_iff in ND as [N1 N2]. destruct K1 as [->|K1]; [apply N1, in_or_app; auto|auto]. }
  assert (L1 : forall x, In x l1 -> liveH m x) by (intros x K; apply R, in_or_app; auto).
  destruct (relabel_ok l1 (loopFuel mX) mX a (hA + 1) fN) as (F' & RF & ZF' & GF).
  { apply (chain_redirect (nx m)) with b; auto; [apply NoDup_app_l in ND; auto|rewrite qL|rewrite qL; auto].
    intros x Kx Kq. rewrite NXo; auto. intros ->; auto. }
  { intros K. apply L1 in K. apply B in K. unfold hA in K. clear -K. lia. }
  { rewrite app_length in Bl. unfold loopFuel. unfold zlen in ZN, T1. clear -Bl ZN T1 R1. lia. }
  { intros x Kx. apply L1 in Kx. apply B in Kx. rewrite ZN, ZF. clear -Kx T1 T3 R1. fold hA in Kx. lia. }
  rewrite RF. cbn [bind].
  exists m2, s, (set_heFace mX F'), p, q, l1, l2. split; [reflexivity|].
  split; [exact A2|]. split; [exact R1|]. split; [exact R2|]. split; [exact Lp|]. split; [exact Np|]. split; [exact Lq|]. split; [exact Nq|].
  split; [exact C1|]. split; [exact C2|]. split; [exact ND|]. split; [exact R|].
  assert (FA2 : fa m2 a = fa m a). { rewrite (al_fa _ _ _ A2) by auto. fold fN. clear -FAR. destruct (Z.leb_spec fN (fa m a)); lia. }
  constructor; unfold reset; proj; fold (reset m2 m); fold hA; fold fN;
   change (nx (set_heFace mX F')) with (nx mX); change (ve (set_heFace mX F')) with (ve mX); change (vh (set_heFace mX F')) with (vh mX); change (fh (set_heFace mX F')) with (fh mX);
   change (nx (reset m2 m)) with (nx m2); change (ve (reset m2 m)) with (ve m2); change (fa (reset m2 m)) with (fa m2);
   change (vh (reset m2 m)) with (vh m2); change (fh (reset m2 m)) with (fh m2); change (fFill (reset m2 m)) with (fFill m);
   rewrite ?VE2, ?FA2 by auto; auto.
  - unfold mX; proj; rewrite Y5, Y6, Y7, Y8, Y9, Y10, X5, X6, X7, X8, X9, X10. reflexivity.
  - unfold mX; proj; rewrite Y11, Y12, Y13, Y14, Y15, X11, X12, X13, X14, X15. reflexivity.
  - unfold lens. proj. rewrite ZF', ZF. unfold mX. proj. rewrite ?zlen_updZ. reflexivity.
  - clear -BND pq EQ EQ2 HH H H0 H1 H2 H3 H4 H5 H6. unfold mX. view. rewrite ?EQ2 by auto. rewrite ?EQ, ?Z.eqb_refl by auto. reflexivity.
  - clear -BND pq EQ EQ2 HH H H0 H1 H2 H3 H4 H5 H6. unfold mX. view. rewrite ?EQ2 by auto. rewrite ?EQ, ?Z.eqb_refl by auto. reflexivity.
  - clear -BND pq EQ EQ2 HH H H0 H1 H2 H3 H4 H5 H6. unfold mX. view. rewrite ?EQ by auto. rewrite Z.eqb_refl. reflexivity.
  - clear -BND pq EQ EQ2 HH H H0 H1 H2 H3 H4 H5 H6. unfold mX. view. rewrite Z.eqb_refl. reflexivity.
  - intros h Hh. destruct (SH _ Hh). clear -BND EQ H7 H8. unfold mX. view. rewrite ?EQ by auto. reflexivity.
  - unfold fa at 1. proj. rewrite GF. destruct (inl hA l1) eqn:Ei; [apply inl_In in Ei; apply L1, B in Ei; exfalso; unfold hA in Ei; clear -Ei; lia|].
    clear -BND EQ EQ2 HH. unfold mX. view. rewrite (EQ hA) by auto. rewrite Z.eqb_refl. reflexivity.
  - unfold fa at 1. proj. rewrite GF. destruct (inl (hA + 1) l1) eqn:Ei; [apply inl_In in Ei; apply L1, B in Ei; exfalso; unfold hA in Ei; clear -Ei; lia|].
    clear -BND EQ EQ2 HH. unfold mX. view. rewrite Z.eqb_refl. reflexivity.
  - intros h Hh. unfold fa at 1. proj. rewrite GF. destruct (inl h l1); auto. destruct (SH _ Hh). clear -BND EQ H7 H8. unfold mX. view. rewrite ?EQ by auto. reflexivity.
  - clear -BND EQ EQ2 FF. unfold mX. view. rewrite (EQ (fa m a) fN) by auto. rewrite Z.eqb_refl. reflexivity.
  - clear -BND EQ EQ2 FF. unfold mX. view. rewrite Z.eqb_refl. reflexivity.
  - intros f K1 K2. clear -BND EQ EQ2 FF K1 K2. unfold mX. view. rewrite ?EQ by auto. reflexivity.
Qed.

Lemma iterS {A} (f : A -> A) n x : Nat.iter (S n) f x = Nat.iter n f (f x).
Proof. induction n as [|n IH]; [reflexivity|]. change (Nat.iter (S (S n)) f x) with (f (Nat.iter (S n) f x)). rewrite IH. reflexivity. Qed.
Lemma chain_before f a l b h : chain f a l b -> ~ In b l -> (In h l <-> exists i, Nat.iter i f a = h /\ forall j, (j <= i)%nat -> Nat.iter j f a <> b).
Proof.
  revert a; induction l as [|y t IH]; intros a C NI.
  - cbn in C. subst. split; [contradiction|]. intros (i & _ & H). exfalso. apply (H 0%nat); [lia|reflexivity].
  - destruct C as [-> C]. assert (Nb : a <> b) by (intros ->; apply NI; left; auto). assert (NI' : ~ In b t) by (intros K; apply NI; right; auto).
    cbn [In]. rewrite (IH (f a) C NI'). split.
    + intros [->|(i & E & H)].
      * exists 0%nat. split; auto. intros j Hj. assert (j = 0%nat) as -> by lia. exact Nb.
      * exists (S i). rewrite iterS. split; auto. intros [|j] Hj; [exact Nb|]. rewrite iterS. apply H. lia.
    + intros ([|i] & E & H); [left; exact E|]. right. exists i. rewrite iterS in E. split; auto. intros j Hj. rewrite <- iterS. apply H. lia.
Qed.

(** connectVertices relative to the mesh before the call *)
Lemma connect_spec m a b : Valid m -> NoDeadLoops m -> liveH m a -> liveH m b -> fa m a = fa m b -> ~ ext m a -> a <> b -> nx m a <> b -> nx m b <> a ->
  let n := heFill m in let t := heFill m + 1 in let f := fFill m in
  exists m', connectVertices m a b = Ok (m', n) /\ Valid m' /\ NoDeadLoops m' /\
    nVertices m' = nVertices m /\ nEdges m' = nEdges m + 1 /\ nHalfedges m' = nHalfedges m + 2 /\ nInterior m' = nInterior m + 2 /\ nFaces m' = nFaces m + 1 /\ nLoops m' = nLoops m /\
    ~ liveH m n /\ ~ liveH m t /\ ~ liveF m f /\ tw n = t /\
    (forall h, liveH m' h <-> liveH m h \/ h = n \/ h = t) /\ (forall v, liveV m' v <-> liveV m v) /\ (forall g, liveF m' g <-> liveF m g \/ g = f) /\
    (forall i, liveBL m' i <-> liveBL m i) /\
    ve m' n = ve m a /\ ve m' t = ve m b /\ (forall h, liveH m h -> ve m' h = ve m h) /\
    nx m' n = b /\ nx m' t = a /\ (forall h, liveH m h -> nx m h = a -> nx m' h = n) /\ (forall h, liveH m h -> nx m h = b -> nx m' h = t) /\
    (forall h, liveH m h -> nx m h <> a -> nx m h <> b -> nx m' h = nx m h) /\
    side m' n = side m a /\ side m' t = FaceSide f /\
    (forall h, liveH m h -> before m a b h -> side m' h = FaceSide f) /\ (forall h, liveH m h -> ~ before m a b h -> side m' h = side m h) /\
    (forall v, liveV m v -> vh m' v = vh m v) /\
    heFill m' = heFill m + 2 /\ vFill m' = vFill m /\ fFill m' = fFill m + 1 /\ bFill m' = bFill m.
Proof.
  intros V ND0 La Lb F Ia ab nab nba n t f.
  destruct (connect_run m a b V ND0 La Lb F Ia ab nab nba) as (m2 & s & m' & p & q & l1 & l2 & R & A & R1 & R2 & Lp & Np & Lq & Nq & C1 & C2 & ND & CM & E).
  pose proof (va_cn _ V) as CN. pose proof (va_st _ V) as ST.
  assert (RG : forall h, liveH m h -> 0 <= h < n) by (intros h [K _]; exact K).
  pose proof (reset_valid m m2 s V A) as VG. set (g := reset m2 m) in *.
  assert (LG : forall h, liveH g h <-> liveH m h) by (apply (reset_liveH m m2 s A)).
  assert (NG : forall h, liveH m h -> nx g h = nx m h) by (intros; eapply reset_nx; eauto).
  assert (WG : forall h, liveH m h -> ve g h = ve m h) by (intros; eapply reset_ve; eauto).
  assert (FE : forall x y, liveH m x -> liveH m y -> (fa g x = fa g y <-> fa m x = fa m y)) by (apply (reset_fa_eq m m2 s V A)).
  assert (L1 : forall x, In x l1 -> liveH m x) by (intros x K; apply CM, in_or_app; auto).
  assert (L2 : forall x, In x l2 -> liveH m x) by (intros x K; apply CM, in_or_app; auto).
  assert (FAR : 0 <= fa m a < fFill m). { pose proof (st_f _ ST) as KS. destruct (cn_fa _ CN _ La) as [[K _]|[K _]]; [exact K|]. exfalso. apply Ia. unfold ext. clear -K KS. lia. }
  assert (FGa : fa g a = fa m a). { unfold g. rewrite (reset_fa m m2 s A) by auto. clear -FAR. destruct (Z.leb_spec (fFill m) (fa m a)); lia. }
  assert (V' : Valid m').
  { eapply (con_valid g m' a b p q l1 l2); eauto; try (apply LG; auto).
    - rewrite NG; auto.
    - rewrite NG; auto.
    - apply FE; auto.
    - unfold g. rewrite (reset_ext m m2 s A) by auto. exact Ia.
    - eapply chain_ext; [|exact C1]. intros x Hx. symmetry; apply NG; auto.
    - eapply chain_ext; [|exact C2]. intros x Hx. symmetry; apply NG; auto.
    - intros x. rewrite CM. rewrite LG. split; intros [K1 K2]; (split; [auto|]); apply FE; auto. }
  exists m'. split; [exact R|]. split; [exact V'|].
  destruct E as [Cn Fl Cp Le NA NB Npp Nqq NO VA VB VO FA FB FO HV H1 H2 HO].
  injection Cn as D1 D2 D3 D4 D5 D6. injection Fl as F1 F2 F3 F4 F5. injection Cp as P1 P2 P3 P4.
  change (heFill g) with n in *. change (fFill g) with f in *. change (n + 1) with t in Nqq, NB, VB, FB, H2. rewrite WG in VA, VB by auto. rewrite FGa in FA, H1, HO.
  assert (Rt : t = n + 1) by reflexivity. assert (Rn : 0 <= n) by (unfold n; destruct ST; clear -st_he; lia). assert (Rf : 0 <= f) by (fold f in FAR; clear -FAR; lia).
  assert (nb : ~ In b l1). { intros K. assert (K2 : In b l2). { destruct l2 as [|y l2]; [cbn in C2; congruence|]. destruct C2 as [-> _]. left; auto. }
    clear -ND K K2. induction l1 as [|y u IH]; [contradiction|]. cbn in ND. apply NoDup_cons_iff in ND as [N1 N2]. destruct K as [->|K]; [apply N1, in_or_app; auto|auto]. }
  assert (BF : forall h, before m a b h <-> In h l1). { intros h. symmetry. apply chain_before; auto. }
  split; [unfold NoDeadLoops in *; rewrite D6, F5; exact ND0|].
  split; [exact D4|]. split; [exact D3|]. split; [exact D1|]. split; [exact D2|]. split; [exact D5|]. split; [exact D6|].
  split; [intros [K _]; unfold n in K; clear -K; lia|]. split; [intros [K _]; unfold t in K; clear -K; lia|]. split; [intros [K _]; unfold f in K; clear -K; lia|].
  split; [apply tw_even; unfold n; destruct ST; clear -st_edge; lia|].
  split. { intros h. unfold liveH at 1. rewrite F1. split.
    - intros [K1 K2]. destruct (Z.eq_dec h n); auto. destruct (Z.eq_dec h t); auto. left.
      assert (Kh : 0 <= h < heFill m) by (fold n; clear -K1 Rt n0 n1; lia). split; auto.
      destruct (Z.eq_dec h p) as [->|]; [apply Lp|]. destruct (Z.eq_dec h q) as [->|]; [apply Lq|]. rewrite NO in K2 by auto. rewrite <- (reset_nx m m2 s A h Kh). exact K2.
    - intros [K|[->| ->]].
      + split; [pose proof (RG _ K); clear -H; lia|].
        destruct (Z.eq_dec h p) as [->|]; [rewrite Npp; clear -Rn; lia|]. destruct (Z.eq_dec h q) as [->|]; [rewrite Nqq; clear -Rt Rn; lia|]. rewrite NO by auto. rewrite NG by auto. apply K.
      + rewrite NA. pose proof (RG _ Lb). clear -Rn H. lia.
      + rewrite NB. pose proof (RG _ La). clear -Rn Rt H. lia. }
  assert (VHg : forall v, 0 <= v < vFill m -> vh m' v = vh m v) by (intros v Hv; rewrite HV; apply (reset_vh m m2 s A); auto).
  split. { intros v. unfold liveV. rewrite F3. change (vFill g) with (vFill m). split; intros [K1 K2]; (split; [auto|]); rewrite VHg in * by auto; auto. }
  assert (FHx : fh m (fa m a) <> -1) by (destruct (cn_fa _ CN _ La) as [[_ K]|[_ K]]; exact K).
  split. { intros k. unfold liveF. rewrite F4. destruct (Z.eq_dec k f) as [->|Kf].
    - rewrite H2. split; auto. intros _. clear -Rf Rn Rt. lia.
    - destruct (Z.eq_dec k (fa m a)) as [->|Ka].
      + rewrite H1. fold f. split; [intros _; left; auto|]. intros _. clear -FAR Rn. fold f in FAR. lia.
      + rewrite HO by auto. change (fh g k) with (fh m2 k). fold f. split; [intros [K1 K2]; left; assert (0 <= k < f) by (clear -K1 Kf; lia); split; auto; rewrite (al_fh _ _ _ A) in K2 by auto; auto|].
        intros [[K1 K2]|K]; [|contradiction]. rewrite (al_fh _ _ _ A) by auto. split; auto. clear -K1. lia. }
  split. { intros i. rewrite <- (reset_liveBL m m2 s i ST A). fold g. unfold liveBL. rewrite F5, P4. change (bFill g) with (bFill m). change (fCap g) with (fCap m2).
    split; intros [K1 K2]; (split; [auto|]); [rewrite <- HO|rewrite HO]; auto; subst f; clear -K1 R2 FAR; lia. }
  split; [exact VA|]. split; [exact VB|]. split; [intros h Hh; rewrite VO by (apply RG; auto); auto|].
  split; [exact NA|]. split; [exact NB|].
  split. { intros h Hh Hn. assert (h = p) as -> by (apply (cn_inj _ CN); auto; congruence). exact Npp. }
  split. { intros h Hh Hn. assert (h = q) as -> by (apply (cn_inj _ CN); auto; congruence). exact Nqq. }
  split. { intros h Hh K1 K2. assert (h <> p) by (intros ->; auto). assert (h <> q) by (intros ->; auto). rewrite NO; auto. }
  assert (SD : forall h k, fa m' h = k -> 0 <= k < f + 1 -> side m' h = FaceSide k).
  { intros h k Ek Hk. unfold side. rewrite F4, Ek. destruct (Z.leb_spec (fFill m + 1) k); [exfalso; unfold f in Hk; clear -H Hk; lia|auto]. }
  assert (SA : side m a = FaceSide (fa m a)). { unfold side. destruct (Z.leb_spec (fFill m) (fa m a)); [exfalso; clear -H FAR; lia|auto]. }
  split. { rewrite SA. apply SD; auto. fold f in FAR. clear -FAR. lia. }
  split. { apply SD; auto. clear -Rf. lia. }
  split. { intros h Hh Hb. apply BF in Hb. apply SD; [|clear -Rf; lia]. rewrite FO by (apply RG; auto). rewrite (proj2 (inl_In _ _) Hb). reflexivity. }
  split. { intros h Hh Hb. rewrite BF in Hb. rewrite <- (reset_side m m2 s h A Hh). fold g. unfold side. rewrite F4, P4. change (fFill g) with f.
    rewrite FO by (apply RG; auto). rewrite (proj2 (inl_nIn _ _) Hb). assert (Kf : fa g h <> f).
    { intros K. pose proof (cn_fa _ (va_cn _ VG) h (proj2 (LG h) Hh)) as Kx. pose proof (st_f _ (va_st _ VG)) as KS. rewrite K in Kx.
      change (fFill g) with f in KS. change (bFill g) with (bFill m) in KS. unfold liveFL, liveF, liveL in Kx. change (fFill g) with f in Kx. change (bFill g) with (bFill m) in Kx. change (fCap g) with (fCap m2) in *.
      fold f in R2. clear -Kx KS R2. lia. }
    unfold f in *. destruct (Z.leb_spec (fFill m + 1) (fa g h)), (Z.leb_spec (fFill m) (fa g h)); auto; exfalso; clear -H H0 Kf; lia. }
  split; [intros v [Kv _]; auto|]. split; [exact F1|]. split; [exact F3|]. split; [exact F4|exact F5].
Qed.
