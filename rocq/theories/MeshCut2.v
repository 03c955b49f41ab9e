(** turning a face into a boundary loop *)
From Verif Require Import Base MeshModel MeshSpec MeshBase MeshExec MeshOrbit MeshAlloc MeshFlip MeshInsert MeshOpSpec MeshConnect.
Open Scope Z_scope.

Lemma countb_minus p q n l : NoDup l -> (forall x, In x l -> 0 <= x < n /\ p x = true) -> (forall i, 0 <= i < n -> q i = p i && negb (inl i l)) ->
  countb q n = countb p n - Z.of_nat (length l).
Proof.
  intros ND. revert q. induction ND as [|x t N ND IH]; intros q H E.
  - cbn. rewrite Z.sub_0_r. apply countb_ext. intros i Hi. rewrite E by auto. cbn. apply andb_true_r.
  - destruct (H x (or_introl eq_refl)) as [Rx Px].
    rewrite (countb_upd (fun i => p i && negb (inl i t)) q n x); auto.
    + rewrite (IH (fun i => p i && negb (inl i t))); [|intros; apply H; right; auto|auto].
      rewrite E by auto. rewrite Px. rewrite (proj2 (inl_nIn x t) N). rewrite (proj2 (inl_In x (x :: t)) (or_introl eq_refl)). cbn [negb andb b2z length]. lia.
    + intros j Hj Nj. rewrite E by auto. f_equal. f_equal. unfold inl. cbn [existsb]. destruct (Z.eqb_spec j x); [contradiction|]. reflexivity.
Qed.

Lemma inl_case h l : (In h l /\ inl h l = true) \/ (~ In h l /\ inl h l = false).
Proof. destruct (inl h l) eqn:E; [left|right]; split; auto; [apply inl_In|apply inl_nIn]; auto. Qed.

(** l is the face with the last index; bl the new boundary loop *)
Record PunchEff (g m' : mesh) (l : list Z) : Prop := {
  pe_cnt : (nHalfedges m', nInterior m', nEdges m', nVertices m', nFaces m', nLoops m') =
           (nHalfedges g, nInterior g - Z.of_nat (length l), nEdges g, nVertices g, nFaces g - 1, nLoops g + 1);
  pe_fill : (heFill m', eFill m', vFill m', fFill m', bFill m') = (heFill g, eFill g, vFill g, fFill g - 1, bFill g + 1);
  pe_cap : (heCap m', eCap m', vCap m', fCap m') = (heCap g, eCap g, vCap g, fCap g);
  pe_lens : lens m' = lens g;
  pe_nx : forall h, 0 <= h < heFill g -> nx m' h = nx g h;
  pe_ve : forall h, 0 <= h < heFill g -> ve m' h = ve g h;
  pe_fa : forall h, 0 <= h < heFill g -> fa m' h = if inl h l then fCap g - 1 - bFill g else fa g h;
  pe_vl : forall x, In x l -> vh m' (ve g (tw x)) = tw x;
  pe_vh : forall v, (forall x, In x l -> ve g x <> v) -> vh m' v = vh g v;
  pe_bl : In (fh m' (fCap g - 1 - bFill g)) l;
  pe_fh : forall f, f <> fFill g - 1 -> f <> fCap g - 1 - bFill g -> fh m' f = fh g f;
  pe_slot : fFill g - 1 <> fCap g - 1 - bFill g -> -1 <= fh m' (fFill g - 1) < Z.max 1 (heFill g) }.

Section PunchValid.
Context (g m' : mesh) (l : list Z) (V : Valid g).
Context (ND : NoDup l) (CM : forall x, In x l <-> liveH g x /\ fa g x = fFill g - 1).
Context (Odd : forall x, In x l -> x mod 2 = 1).
Context (Int : forall x h, In x l -> liveH g h -> ve g h = ve g x -> ~ ext g h).
Context (E : PunchEff g m' l).

Lemma punch_valid : Valid m'.
Proof.
  destruct V as [ST CT CN SG]. destruct E as [Cn Fl Cp Le NO VO FO VL VH BL HO SL].
  injection Cn as D1 D2 D3 D4 D5 D6. injection Fl as F1 F2 F3 F4 F5. injection Cp as P1 P2 P3 P4.
  unfold lens in Le. injection Le as Z1 Z2 Z3 Z4 Z5. destruct ST as [T1 T2 T3 T4 T5 T6 T7 T8 T9].
  set (fN := fFill g - 1) in *. set (bl := fCap g - 1 - bFill g) in *.
  set (z := fh m' bl) in *. assert (Lz : liveH g z /\ fa g z = fN) by (apply CM; auto). destruct Lz as [Lz Fz].
  assert (LR : forall h, liveH g h -> 0 <= h < heFill g) by (intros h [K _]; exact K).
  assert (Rz := LR _ Lz).
  assert (FN : 0 <= fN). { destruct (cn_fa _ CN z Lz) as [[K _]|[K _]]; rewrite Fz in K; [|unfold fN in K]; clear -K T9; lia. }
  assert (FB : fN <= bl) by (unfold fN, bl; clear -T9; lia).
  assert (LFN : liveF g fN). { destruct (cn_fa _ CN z Lz) as [K|[K _]]; rewrite Fz in K; auto. exfalso. unfold fN in K. clear -K T9. lia. }
  assert (LH : forall h, liveH m' h <-> liveH g h). { intros h. unfold liveH. rewrite F1. split; intros [K1 K2]; (split; [auto|]); rewrite NO in * by auto; auto. }
  assert (LHb : forall h, 0 <= h < heFill g -> liveHb m' h = liveHb g h) by (intros h Hh; unfold liveHb; rewrite NO by auto; auto).
  assert (CLS : forall h, liveH g h -> (In h l <-> fa g h = fN)) by (intros h K; rewrite CM; tauto).
  (* which vertices change *)
  assert (PV : forall x, In x l -> exists y, In y l /\ nx g y = x).
  { intros x Hx. apply CM in Hx as [Hx Fx]. assert (V0 : Valid g) by exact V. destruct (prev_ok g V0 x Hx) as (y & Ly & Ny & Fy & _). exists y. split; auto. apply CM. split; auto. congruence. }
  assert (NXI : forall x, In x l -> In (nx g x) l). { intros x Hx. apply CM in Hx as [Hx Fx]. apply CM. split; [apply CN; auto|]. rewrite (cn_fnx _ CN); auto. }
  assert (VC : forall v, liveV g v -> (exists x, In x l /\ v = ve g (tw x) /\ vh m' v = tw x) \/ ((forall x, In x l -> ve g x <> v) /\ vh m' v = vh g v)).
  { intros v Lv. destruct (existsb (fun x => ve g x =? v) l) eqn:Ex.
    - apply existsb_exists in Ex as (x & Hx & Ex). apply Z.eqb_eq in Ex. left. destruct (PV x Hx) as (y & Hy & Ny). exists y. split; auto.
      assert (Ev : v = ve g (tw y)). { pose proof Hy as Hy'. apply CM in Hy' as [Ly _]. rewrite <- (cn_vnx _ CN y Ly). congruence. }
      split; auto. rewrite Ev. auto.
    - right. assert (K : forall x, In x l -> ve g x <> v). { intros x Hx K. assert (Kx : existsb (fun x => ve g x =? v) l = true) by (apply existsb_exists; exists x; split; auto; apply Z.eqb_eq; auto). congruence. }
      split; auto. }
  assert (LV : forall v, liveV m' v <-> liveV g v).
  { assert (K : forall v, 0 <= v < vFill g -> (vh m' v = -1 <-> vh g v = -1)).
    { intros v Hv. destruct (Z.eq_dec (vh g v) (-1)) as [Kv|Kv].
      - rewrite VH; [tauto|]. intros x Hx Ex. apply CM in Hx as [Lx _]. pose proof (cn_ve _ CN x Lx) as [_ Q]. rewrite Ex in Q. auto.
      - destruct (VC v (conj Hv Kv)) as [(x & Hx & _ & ->)|(_ & ->)]; [|tauto]. apply CM in Hx as [Lx _]. pose proof (LR _ (cn_tw _ CN x Lx)) as Q. clear -Q Kv. lia. }
    intros v. unfold liveV. rewrite F3. split; intros [K1 K2]; (split; [auto|]); intros K3; apply K2, K; auto. }
  assert (LF : forall f, liveF m' f <-> (liveF g f /\ f <> fN)).
  { intros f. unfold liveF. rewrite F4. fold fN. split.
    - intros [K1 K2]. rewrite HO in K2; [|clear -K1; lia|clear -K1 FB; lia]. split; [split; auto; unfold fN in *; clear -K1; lia|clear -K1; lia].
    - intros [[K1 K2] K3]. assert (K4 : 0 <= f < fN) by (unfold fN in *; clear -K1 K3; lia). rewrite HO; [auto|clear -K4; lia|clear -K4 FB; lia]. }
  assert (LL : forall f, liveL m' f <-> (liveL g f \/ f = bl)).
  { intros f. unfold liveL. rewrite F5, P4. destruct (Z.eq_dec f bl) as [->|Kf].
    - fold z. split; auto. intros _. unfold bl. clear -Rz T9 FB FN. unfold fN, bl in *. lia.
    - split.
      + intros [K1 K2]. left. assert (K4 : bl < f) by (unfold bl in *; clear -K1 Kf; lia). rewrite HO in K2; [|clear -K4 FB; lia|auto]. split; auto. unfold bl in *. clear -K1 K4. lia.
      + intros [[K1 K2]|K]; [|contradiction]. assert (K4 : bl < f) by (unfold bl; clear -K1; lia). rewrite HO; [|clear -K4 FB; lia|auto]. split; auto. clear -K1. lia. }
  assert (LFL : forall f, liveFL m' f <-> ((liveFL g f /\ f <> fN) \/ f = bl)).
  { intros f. unfold liveFL. rewrite LF, LL. split.
    - intros [[K K']|[K|K]]; [left; split; auto| |auto]. left. split; auto. intros ->. destruct K as [K _]. unfold fN in K. clear -K T9. lia.
    - intros [[[K|K] K2]|K]; auto. }
  assert (BLn : forall f, liveFL g f -> f <> fN -> f <> bl). { intros f [[K _]|[K _]] Kn ->; unfold fN, bl in *; clear -K Kn T9; lia. }
  assert (FOl : forall h, liveH g h -> fa m' h = if inl h l then bl else fa g h) by (intros; apply FO; auto).
  assert (FEQ : forall a b, liveH g a -> liveH g b -> (fa m' a = fa m' b <-> fa g a = fa g b)).
  { intros a b Ha Hb. rewrite !FOl by auto. destruct (inl_case a l) as [[Ea ->]|[Ea ->]], (inl_case b l) as [[Eb ->]|[Eb ->]]; try tauto.
    - apply CM in Ea as [_ Ea]. apply CM in Eb as [_ Eb]. split; congruence.
    - rewrite CLS in Eb by auto. apply CM in Ea as [_ Ea]. split; intros K; [exfalso; apply (BLn (fa g b)); auto; [apply CN; auto]|congruence].
    - rewrite CLS in Ea by auto. apply CM in Eb as [_ Eb]. split; intros K; [exfalso; apply (BLn (fa g a)); auto; [apply CN; auto]|congruence]. }
  assert (EXT : forall h, liveH g h -> (ext m' h <-> ext g h \/ In h l)).
  { intros h Hh. unfold ext. rewrite F4, FOl by auto. fold fN. destruct (inl h l) eqn:Ei.
    - apply inl_In in Ei. split; [auto|]. intros _. exact FB.
    - apply inl_nIn in Ei. rewrite CLS in * by auto. unfold fN in *. clear -Ei. lia. }
  assert (ROE : forall h, liveH g h -> ro m' h = ro g h) by (intros h Hh; unfold ro; apply NO, LR, CN; auto).
  split.
  - split; try (clear -Z1 Z2 Z3 Z4 Z5 F1 F2 F3 F4 F5 P1 P2 P3 P4 T1 T2 T3 T4 T5 T6 T7 T8 T9 FN FB; unfold fN, bl in *; lia).
  - destruct CT as [G1 G2 G3 G4 G5 G6]. split.
    + rewrite D1, F1, G1. apply countb_ext. intros; symmetry; auto.
    + rewrite D2, F1, G2. symmetry. apply countb_minus; auto.
      * intros x Hx. apply CM in Hx as [Lx Fx]. split; auto. unfold intHb, liveHb. rewrite Fx. destruct Lx as [_ Lx]. unfold fN. clear -Lx. lia.
      * intros h Hh. unfold intHb. rewrite LHb by auto. destruct (liveHb g h) eqn:Eh; auto. cbn [andb].
        assert (Lh : liveH g h) by (split; auto; unfold liveHb in Eh; clear -Eh; lia). pose proof (EXT h Lh) as K. unfold ext in K.
        destruct (inl_case h l) as [[Ei ->]|[Ei ->]]; destruct (Z.leb_spec (fFill m') (fa m' h)), (Z.leb_spec (fFill g) (fa g h)); cbn; try reflexivity; exfalso; clear -K Ei H H0; intuition lia.
    + rewrite D3, F2, G3. apply countb_ext. intros e He. symmetry. apply LHb. clear -He T7. lia.
    + rewrite D4, F3, G4. apply countb_ext. intros v Hv. pose proof (LV v) as K. unfold liveV in K. rewrite F3 in K. unfold liveVb. clear -K Hv. destruct (Z.eqb_spec (vh g v) (-1)), (Z.eqb_spec (vh m' v) (-1)); auto; exfalso; tauto.
    + rewrite D5, F4, G5. fold fN. replace (fFill g) with (fN + 1) by (unfold fN; lia). rewrite countb_S by auto.
      replace (liveFb g fN) with true by (destruct LFN as [_ K]; unfold liveFb; clear -K; lia). cbn [b2z].
      rewrite (countb_ext (liveFb m') (liveFb g)); [lia|]. intros f Hf. unfold liveFb. rewrite HO; [auto|clear -Hf; lia|clear -Hf FB; lia].
    + rewrite D6, F5, P4, G6. rewrite countb_S by (clear -T9; lia). replace (fCap g - 1 - bFill g) with bl by reflexivity. unfold liveFb at 3. fold z.
      replace (z =? -1) with false by (clear -Rz; lia). cbn [negb b2z]. f_equal. apply countb_ext. intros i Hi. unfold liveFb. rewrite HO; auto; unfold fN, bl; clear -Hi T9; lia.
  - split.
    + intros h Hh. apply LH in Hh. apply LH, CN; auto.
    + intros h Hh. apply LH in Hh. rewrite NO by auto. apply LH, CN; auto.
    + intros a b Ha Hb K. apply LH in Ha, Hb. rewrite !NO in K by auto. apply CN; auto.
    + intros h Hh. apply LH in Hh. rewrite VO by auto. apply LV, CN; auto.
    + intros h Hh. apply LH in Hh. apply LFL. rewrite FOl by auto. destruct (inl h l) eqn:Ei; auto. left. split; [apply CN; auto|]. rewrite <- CLS by auto. apply inl_nIn; auto.
    + intros h Hh. apply LH in Hh. rewrite NO by auto. rewrite !VO by (apply LR, CN; auto). apply (cn_vnx _ CN); auto.
    + intros h Hh. apply LH in Hh. rewrite NO by auto. apply (proj2 (FEQ _ _ (cn_nx _ CN h Hh) Hh)). apply (cn_fnx _ CN); auto.
    + intros v Hv. apply LV in Hv. destruct (VC v Hv) as [(x & Hx & Ev & ->)|(_ & ->)].
      * apply CM in Hx as [Lx _]. pose proof (cn_tw _ CN x Lx). split; [apply LH; auto|]. rewrite VO; auto.
      * destruct (cn_vh _ CN v Hv). split; [apply LH; auto|]. rewrite VO; auto.
    + intros f Hf. apply LFL in Hf as [[Hf Kf]| ->].
      * rewrite HO by auto. destruct (cn_fh _ CN f Hf) as [Q1 Q2]. split; [apply LH; auto|]. rewrite FOl by auto. destruct (inl (fh g f) l) eqn:Ei; auto. apply inl_In in Ei. apply CM in Ei as [_ Ei]. congruence.
      * fold z. split; [apply LH; auto|]. rewrite FOl by auto. rewrite (proj2 (inl_In z l) BL). auto.
    + intros a b Ha Hb K. apply LH in Ha, Hb. apply FEQ in K; auto. apply (reach_ext (liveH g)) with (f := nx g); auto; [apply CN|apply (cn_forb _ CN); auto].
    + intros a b Ha Hb K. apply LH in Ha, Hb. rewrite !VO in K by auto. apply (reach_ext (liveH g)) with (f := ro g); auto; [intros; apply CN, CN; auto|apply (cn_vorb _ CN); auto].
    + intros h Hh Hm K. apply LH in Hh. apply EXT in K as [K|K]; auto; [exact (cn_ebd _ CN h Hh Hm K)|]. apply Odd in K. clear -K Hm. lia.
    + intros h Hh K. apply LH in Hh. rewrite VO by auto. pose proof (cn_tw _ CN h Hh) as Lt. apply EXT in K as [K|K]; auto.
      * destruct (VC (ve g h) (cn_ve _ CN h Hh)) as [(x & Hx & Ev & _)|(_ & ->)]; [|apply (cn_vbd _ CN); auto].
        exfalso. pose proof (cn_nx _ CN _ Lt) as Ln. apply (Int (nx g x) (nx g (tw h))); auto.
        -- rewrite (cn_vnx _ CN) by auto. rewrite tw_tw, Ev. symmetry. apply (cn_vnx _ CN). apply CM; auto.
        -- unfold ext. rewrite (cn_fnx _ CN) by auto. exact K.
      * pose proof (VL (tw h) K) as Q. rewrite tw_tw in Q. exact Q.
  - destruct SG as [G1 G2]. split; rewrite F1, ?F3, ?F4, ?F5, ?P3, ?P4.
    + intros v Hv. rewrite VH; [apply G1; auto|]. intros x Hx Ex. apply CM in Hx as [Lx _]. pose proof (cn_ve _ CN x Lx) as [K _]. rewrite Ex in K. clear -K Hv. lia.
    + fold fN. intros f Hf. destruct (Z.eq_dec f fN) as [->|Kf].
      * apply SL. unfold bl. clear -Hf. lia.
      * rewrite HO; auto; [|unfold bl; clear -Hf; lia]. apply G2. unfold fN in *. clear -Hf Kf. lia.
Qed.
End PunchValid.
