(** SurfaceMesh::flip *)
From Verif Require Import Base MeshModel MeshSpec MeshBase MeshExec MeshOrbit.
Open Scope Z_scope.

Lemma orbit_transfer (L L' : Z -> Prop) (f f' lab lab' phi psi : Z -> Z) (N : Z) :
  (forall a, L a -> L (f a)) ->
  (forall a b, L a -> L b -> lab a = lab b -> reach f a b) ->
  (forall a, L' a -> L' (f' a)) -> (forall a, L' a -> 0 <= a < N) ->
  (forall a b, L' a -> L' b -> f' a = f' b -> a = b) ->
  (forall a, L a -> conn L' f' (phi a) (phi (f a))) ->
  (forall a b, L' a -> L' b -> lab' a = lab' b -> conn L' f' a b \/
     (L (psi a) /\ L (psi b) /\ lab (psi a) = lab (psi b) /\ conn L' f' a (phi (psi a)) /\ conn L' f' b (phi (psi b)))) ->
  forall a b, L' a -> L' b -> lab' a = lab' b -> reach f' a b.
Proof.
  intros HLf Horb HLf' HLb' Hinj' Hstep Hpair a b Ha Hb E.
  apply conn_reach with (L := L') (N := N); auto.
  destruct (Hpair a b Ha Hb E) as [H|(P1 & P2 & P3 & P4 & P5)]; auto.
  eapply conn_trans; [exact P4|]. eapply conn_trans; [|apply conn_sym; exact P5].
  eapply conn_image; [exact Hstep|]. apply reach_conn; auto.
Qed.

Section Tri.
Context (m : mesh) (V : Valid m).
Lemma tri_facts a1 : liveH m a1 -> nx m (nx m (nx m a1)) = a1 -> nx m a1 <> a1 ->
  let a2 := nx m a1 in let a3 := nx m a2 in
  liveH m a2 /\ liveH m a3 /\ nx m a3 = a1 /\ a1 <> a2 /\ a1 <> a3 /\ a2 <> a3 /\ fa m a2 = fa m a1 /\ fa m a3 = fa m a1 /\
  forall x, liveH m x -> fa m x = fa m a1 -> x = a1 \/ x = a2 \/ x = a3.
Proof.
  intros H1 E3 Hne a2 a3. pose proof (va_cn _ V) as CN.
  assert (H2 : liveH m a2) by (apply CN; auto). assert (H3 : liveH m a3) by (apply CN; auto).
  assert (D12 : a1 <> a2) by (unfold a2; congruence).
  assert (D13 : a1 <> a3).
  { intros E. apply Hne. change (nx m a3 = a1) in E3. rewrite <- E in E3. exact E3. }
  assert (D23 : a2 <> a3).
  { intros E. apply D12. apply (cn_inj _ CN); auto. }
  repeat (split; [assumption || (unfold a3, a2; rewrite ?(cn_fnx _ CN) by auto; reflexivity)|]).
  intros x Hx Ex. destruct (face_cycle m V a1 H1) as (l & Hl & C & ND & R & _).
  assert (Hin : reach (nx m) a1 x) by (apply CN; auto).
  destruct Hin as (n & <-). clear Hx Ex. induction n as [|n IH]; [auto|]. simpl. destruct IH as [->|[->| ->]]; auto.
Qed.
End Tri.

Record FlipPre (m : mesh) (a1 : Z) : Prop := {
  fp_live : liveH m a1;
  fp_ia : ~ ext m a1; fp_ib : ~ ext m (tw a1);
  fp_ta : nx m (nx m (nx m a1)) = a1; fp_tb : nx m (nx m (nx m (tw a1))) = tw a1;
  fp_ma : nx m a1 <> a1; fp_mb : nx m (tw a1) <> tw a1;
  fp_d1 : nx m a1 <> tw a1; fp_d2 : nx m (tw a1) <> a1 }.

Record FlipEff (m m' : mesh) (a1 a2 a3 b1 b2 b3 : Z) : Prop := {
  fe_scal : scal m' = scal m; fe_lens : lens m' = lens m;
  fe_log : cblog m' = cblog m; fe_cmp : compressed m' = compressed m;
  fe_a1 : nx m' a1 = b3; fe_b3 : nx m' b3 = a2; fe_a2 : nx m' a2 = a1;
  fe_b1 : nx m' b1 = a3; fe_a3 : nx m' a3 = b2; fe_b2 : nx m' b2 = b1;
  fe_nx : forall h, h <> a1 -> h <> a2 -> h <> a3 -> h <> b1 -> h <> b2 -> h <> b3 -> nx m' h = nx m h;
  fe_ve1 : ve m' a1 = ve m a3; fe_ve2 : ve m' b1 = ve m b3;
  fe_ve : forall h, h <> a1 -> h <> b1 -> ve m' h = ve m h;
  fe_fa1 : fa m' a3 = fa m b1; fe_fa2 : fa m' b3 = fa m a1;
  fe_fa : forall h, h <> a3 -> h <> b3 -> fa m' h = fa m h;
  fe_fh1 : fh m' (fa m a1) = a1; fe_fh2 : fh m' (fa m b1) = b1;
  fe_fh : forall f, f <> fa m a1 -> f <> fa m b1 -> fh m' f = fh m f;
  fe_vh1 : vh m (ve m a1) = a1 -> vh m' (ve m a1) = b2;
  fe_vh2 : vh m (ve m b1) = b1 -> vh m' (ve m b1) = a2;
  fe_vh : forall v, vh m v <> a1 -> vh m v <> b1 -> vh m' v = vh m v;
  fe_vg : forall v, v <> ve m a1 -> v <> ve m b1 -> vh m' v = vh m v }.

Section FlipValid.
Context (m m' : mesh) (a1 : Z).
Let a2 := nx m a1. Let a3 := nx m a2. Let b1 := tw a1. Let b2 := nx m b1. Let b3 := nx m b2.
Context (V : Valid m) (P : FlipPre m a1) (E : FlipEff m m' a1 a2 a3 b1 b2 b3).

Lemma flip_valid : Valid m'.
Proof.
  destruct V as [ST CT CN SG]. destruct P as [L1 Ia Ib Ta Tb Ma Mb D1 D2].
  assert (LB : liveH m b1) by (apply CN; auto).
  destruct (tri_facts m V a1 L1 Ta Ma) as (LA2 & LA3 & N3 & NE1 & NE2 & NE3 & FA2 & FA3 & FA).
  destruct (tri_facts m V b1 LB Tb Mb) as (LB2 & LB3 & N3' & NE1' & NE2' & NE3' & FB2 & FB3 & FB).
  fold a2 a3 in LA2, LA3, N3, NE1, NE2, NE3, FA2, FA3, FA. fold b2 b3 in LB2, LB3, N3', NE1', NE2', NE3', FB2, FB3, FB.
  assert (NX1 : nx m a1 = a2) by reflexivity. assert (NX2 : nx m a2 = a3) by reflexivity.
  assert (NY1 : nx m b1 = b2) by reflexivity. assert (NY2 : nx m b2 = b3) by reflexivity.
  assert (NEab : a1 <> b1) by (unfold b1; pose proof (tw_neq a1); congruence).
  assert (TW1 : tw a1 = b1) by reflexivity. assert (TW2 : tw b1 = a1) by apply tw_tw.
  fold b1 in Ib, D1, D2. fold a2 in D1, Ma. fold b2 in D2, Mb.
  (* the two faces differ *)
  assert (FD : fa m b1 <> fa m a1).
  { intros Ef. destruct (FA b1 LB Ef) as [H|[H|H]]; congruence. }
  assert (X : forall x y, (x = a1 \/ x = a2 \/ x = a3) -> (y = b1 \/ y = b2 \/ y = b3) -> x <> y).
  { intros x y Hx Hy Exy. apply FD. assert (fa m x = fa m a1) by (destruct Hx as [->|[->| ->]]; auto).
    assert (fa m y = fa m b1) by (destruct Hy as [->|[->| ->]]; auto). congruence. }
  pose proof (X a1 b2 ltac:(auto) ltac:(auto)). pose proof (X a1 b3 ltac:(auto) ltac:(auto)).
  pose proof (X a2 b1 ltac:(auto) ltac:(auto)). pose proof (X a2 b2 ltac:(auto) ltac:(auto)). pose proof (X a2 b3 ltac:(auto) ltac:(auto)).
  pose proof (X a3 b1 ltac:(auto) ltac:(auto)). pose proof (X a3 b2 ltac:(auto) ltac:(auto)). pose proof (X a3 b3 ltac:(auto) ltac:(auto)).
  clear X. clearbody a2 a3 b1 b2 b3.
  destruct E as [Sc Le _ _ E1 E2 E3 E4 E5 E6 EN V1 V2 EV F1 F2 EF HH1 HH2 EH W1 W2 EW EG].
  assert (Dec : forall h, h = a1 \/ h = a2 \/ h = a3 \/ h = b1 \/ h = b2 \/ h = b3 \/
                          (h <> a1 /\ h <> a2 /\ h <> a3 /\ h <> b1 /\ h <> b2 /\ h <> b3)) by
    (intros h; destruct (Z.eq_dec h a1); [auto|]; destruct (Z.eq_dec h a2); [auto|]; destruct (Z.eq_dec h a3); [auto|];
     destruct (Z.eq_dec h b1); [auto|]; destruct (Z.eq_dec h b2); [auto 6|]; destruct (Z.eq_dec h b3); [auto 7|]; do 6 right; auto 7).
  unfold scal in Sc. injection Sc as S1 S2 S3 S4 S5 S6 S7 S8 S9 S10 S11 S12 S13 S14 S15.
  unfold lens in Le. injection Le as Z1 Z2 Z3 Z4 Z5.
  (* liveness *)
  assert (Rg : forall h, liveH m h -> 0 <= h) by (intros h [Hh _]; li).
  assert (LH : forall h, liveH m' h <-> liveH m h).
  { intros h. unfold liveH. rewrite S7.
    destruct (Dec h) as [->|[->|[->|[->|[->|[->|(N1 & N2 & N4 & N5 & N6 & N7)]]]]]];
      rewrite ?E1, ?E2, ?E3, ?E4, ?E5, ?E6; try (rewrite EN by auto; tauto);
      (split; intros _; [|split]); try assumption;
      try (match goal with Hx : liveH m ?x |- 0 <= ?x < _ => exact (proj1 Hx) end);
      match goal with |- ?x <> -1 => assert (0 <= x) by (apply Rg; assumption); li end. }
  assert (PV : forall h, liveH m h -> liveH m h /\ True) by auto.
  assert (EX : forall h, liveH m h -> (ext m' h <-> ext m h)).
  { intros h Hh. unfold ext in *. rewrite S10. destruct (Z.eq_dec h a3) as [->|]; [rewrite F1, FA3; li|].
    destruct (Z.eq_dec h b3) as [->|]; [rewrite F2, FB3; li|]. rewrite EF by auto. tauto. }
  (* representatives of vertices *)
  assert (VH : forall v, vh m v <> -1 -> vh m' v = vh m v \/ (vh m v = a1 /\ v <> -1 /\ vh m' v = b2 /\ True) \/ (vh m v = b1 /\ vh m' v = a2) \/ ~ liveV m v).
  { intros v Hv. destruct (Z.eq_dec (vh m v) a1) as [Ea|Ea].
    - destruct (Z.eq_dec v (ve m a1)) as [->|Hne]; [right; left; repeat split; auto; destruct (cn_ve _ CN a1 L1); li|].
      right; right; right. intros Hl. apply Hne. rewrite <- Ea. symmetry. exact (proj2 (cn_vh _ CN _ Hl)).
    - destruct (Z.eq_dec (vh m v) b1) as [Eb|Eb].
      + destruct (Z.eq_dec v (ve m b1)) as [->|Hne]; [right; right; left; repeat split; auto|].
        right; right; right. intros Hl. apply Hne. rewrite <- Eb. symmetry. exact (proj2 (cn_vh _ CN _ Hl)).
      + left. apply EW; auto. }
  assert (LVf : forall v, liveV m v -> liveV m' v /\ (vh m' v = vh m v \/ (vh m v = a1 /\ vh m' v = b2) \/ (vh m v = b1 /\ vh m' v = a2))).
  { intros v [Hv1 Hv2]. destruct (VH v Hv2) as [K|[(K1 & _ & K2 & _)|[(K1 & K2)|K]]].
    - split; [split; [li|rewrite K; auto]|auto].
    - split; [split; [li|rewrite K2; pose proof (Rg _ LB2); li]|auto].
    - split; [split; [li|rewrite K2; pose proof (Rg _ LA2); li]|]. right; right; auto.
    - exfalso; apply K; split; auto. }
  assert (LVb : forall v, vh m v = -1 -> vh m' v = -1).
  { intros v K. rewrite EW; auto; rewrite K; [pose proof (Rg _ L1)|pose proof (Rg _ LB)]; li. }
  assert (LV : forall v, liveV m' v <-> liveV m v).
  { intros v. split; [|apply LVf]. intros [A B]. split; [li|]. intros C. apply B. auto. }
  assert (LFA : liveFL m (fa m a1)) by (apply CN; auto). assert (LFB : liveFL m (fa m b1)) by (apply CN; auto).
  assert (FHd : forall f, (fh m' f = -1 <-> fh m f = -1)).
  { intros f. destruct (Z.eq_dec f (fa m a1)) as [->|].
    - rewrite HH1. pose proof (Rg _ L1). destruct LFA as [[_ K]|[_ K]]; split; intros; try li.
    - destruct (Z.eq_dec f (fa m b1)) as [->|].
      + rewrite HH2. pose proof (Rg _ LB). destruct LFB as [[_ K]|[_ K]]; split; intros; try li.
      + rewrite EH by auto. tauto. }
  assert (LF : forall f, liveFL m' f <-> liveFL m f).
  { intros f. unfold liveFL, liveF, liveL. rewrite S10, S11, S15. rewrite !FHd. tauto. }
  assert (TWS : forall h, tw h = a1 -> h = b1) by (intros h K; apply tw_inj; rewrite TW2; exact K).
  assert (TWS' : forall h, tw h = b1 -> h = a1) by (intros h K; apply tw_inj; rewrite TW1; exact K).
  assert (CT1 : forall h, liveH m h -> liveH m' (tw h)) by (intros h Hh; apply LH, CN; auto).
  assert (CNX : forall h, liveH m' h -> liveH m' (nx m' h)).
  { intros h Hh. apply LH. apply LH in Hh. destruct (Dec h) as [->|[->|[->|[->|[->|[->|(N1 & N2 & N4 & N5 & N6 & N7)]]]]]];
      rewrite ?E1, ?E2, ?E3, ?E4, ?E5, ?E6; auto. rewrite EN by auto. apply CN; auto. }
  (* where old predecessors are *)
  assert (PRE : forall h x, liveH m h -> nx m h = x -> (x = a1 -> h = a3) /\ (x = a2 -> h = a1) /\ (x = a3 -> h = a2)
             /\ (x = b1 -> h = b3) /\ (x = b2 -> h = b1) /\ (x = b3 -> h = b2)).
  { intros h x Hh Ex. repeat split; intros ->; apply (cn_inj _ CN); auto; congruence. }
  assert (CINJ : forall a b, liveH m' a -> liveH m' b -> nx m' a = nx m' b -> a = b).
  { intros a b Ha Hb. apply LH in Ha. apply LH in Hb.
    pose proof (PRE a _ Ha eq_refl) as Pa. pose proof (PRE b _ Hb eq_refl) as Pb.
    destruct (Dec a) as [->|[->|[->|[->|[->|[->|(N1 & N2 & N4 & N5 & N6 & N7)]]]]]];
    destruct (Dec b) as [->|[->|[->|[->|[->|[->|(M1 & M2 & M4 & M5 & M6 & M7)]]]]]]; auto;
    rewrite ?E1, ?E2, ?E3, ?E4, ?E5, ?E6; rewrite ?EN by auto; intros K; try congruence;
    try (symmetry in K; exfalso; tauto); try (exfalso; tauto).
    apply (cn_inj _ CN); auto. }
  assert (CRL : forall h, liveH m' h -> liveH m' (ro m' h)).
  { intros h Hh. apply CNX. apply CT1. apply LH; auto. }
  assert (CRI : forall a b, liveH m' a -> liveH m' b -> ro m' a = ro m' b -> a = b).
  { intros a b Ha Hb K. apply tw_inj. apply CINJ; auto; apply CT1; apply LH; auto. }
  assert (RB : forall a, liveH m' a -> 0 <= a < heFill m') by (intros a [Ha _]; exact Ha).
  split.
  - (* storage *)
    destruct ST as [T1 T2 T3 T4 T5 T6 T7 T8 T9]. split; try congruence; try li.
  - (* counts *)
    destruct CT as [C1 C2 C3 C4 C5 C6].
    assert (LB1 : forall h, liveHb m' h = liveHb m h).
    { intros h. unfold liveHb. f_equal.
      destruct (Dec h) as [->|[->|[->|[->|[->|[->|(N1 & N2 & N4 & N5 & N6 & N7)]]]]]];
      rewrite ?E1, ?E2, ?E3, ?E4, ?E5, ?E6, ?NX1, ?NX2, ?N3, ?NY1, ?NY2, ?N3'; [..|rewrite EN by auto; auto];
      pose proof (Rg _ L1); pose proof (Rg _ LA2); pose proof (Rg _ LA3); pose proof (Rg _ LB); pose proof (Rg _ LB2); pose proof (Rg _ LB3); li. }
    split.
    + rewrite S1, S7, C1. apply countb_ext. intros; symmetry; apply LB1.
    + rewrite S2, S7, C2. apply countb_ext. intros h _. unfold intHb. rewrite LB1, S10. f_equal. f_equal.
      unfold ext in *. destruct (Z.eq_dec h a3) as [->|]; [rewrite F1, FA3; li|].
      destruct (Z.eq_dec h b3) as [->|]; [rewrite F2, FB3; li|]. rewrite EF by auto. reflexivity.
    + rewrite S3, S8, C3. apply countb_ext. intros; symmetry; apply LB1.
    + rewrite S4, S9, C4. apply countb_ext. intros v Hv. unfold liveVb. f_equal.
      destruct (Z.eqb_spec (vh m v) (-1)) as [K|K]; [rewrite LVb by auto; reflexivity|].
      destruct (LVf v (conj Hv K)) as ((_ & K') & _). li.
    + rewrite S5, S10, C5. apply countb_ext. intros f _. unfold liveFb. f_equal. pose proof (FHd f). li.
    + rewrite S6, S11, S15, C6. apply countb_ext. intros i _. unfold liveFb. f_equal. pose proof (FHd (fCap m - 1 - i)). li.
  - (* connectivity *)
    split.
    + intros h Hh. apply CT1. apply LH; auto.
    + exact CNX.
    + exact CINJ.
    + intros h Hh. apply LV. apply LH in Hh. destruct (Z.eq_dec h a1) as [->|]; [rewrite V1; apply CN; auto|].
      destruct (Z.eq_dec h b1) as [->|]; [rewrite V2; apply CN; auto|]. rewrite EV by auto. apply CN; auto.
    + intros h Hh. apply LF. apply LH in Hh. destruct (Z.eq_dec h a3) as [->|]; [rewrite F1; apply CN; auto|].
      destruct (Z.eq_dec h b3) as [->|]; [rewrite F2; apply CN; auto|]. rewrite EF by auto. apply CN; auto.
    + (* tip to tail *)
      assert (EVT : forall h, h <> a1 -> h <> b1 -> ve m' (tw h) = ve m (tw h)).
      { intros h K1 K2. apply EV; intros K; [apply K2|apply K1]; auto. }
      intros h Hh. apply LH in Hh. pose proof (PRE h _ Hh eq_refl) as Ph. pose proof (cn_vnx _ CN h Hh) as Kh.
      pose proof (cn_vnx _ CN a1 L1) as K1. pose proof (cn_vnx _ CN b1 LB) as K2.
      rewrite TW1, NX1 in K1. rewrite TW2, NY1 in K2.
      destruct (Dec h) as [->|[->|[->|[->|[->|[->|(N1 & N2 & N4 & N5 & N6 & N7)]]]]]].
      * rewrite E1, TW1, V2. apply EV; auto.
      * rewrite E3, V1, EVT by auto. rewrite <- Kh, NX2. reflexivity.
      * rewrite E5, EVT, EV by auto. rewrite <- Kh, N3, K2. reflexivity.
      * rewrite E4, TW2, V1. apply EV; auto.
      * rewrite E6, V2, EVT by auto. rewrite <- Kh, NY2. reflexivity.
      * rewrite E2, EVT, EV by auto. rewrite <- Kh, N3', K1. reflexivity.
      * rewrite EN, EVT by auto. rewrite EV; auto; intros K; tauto.
    + intros h Hh. apply LH in Hh. pose proof (PRE h _ Hh eq_refl) as Ph. pose proof (cn_fnx _ CN h Hh) as Kh.
      destruct (Dec h) as [->|[->|[->|[->|[->|[->|(N1 & N2 & N4 & N5 & N6 & N7)]]]]]].
      * rewrite E1, F2. rewrite EF by auto. reflexivity.
      * rewrite E3. rewrite !EF by auto. congruence.
      * rewrite E5, F1. rewrite EF by auto. congruence.
      * rewrite E4, F1. rewrite EF by auto. reflexivity.
      * rewrite E6. rewrite !EF by auto. congruence.
      * rewrite E2, F2. rewrite EF by auto. congruence.
      * rewrite EN by auto. rewrite !EF; auto; intros K; tauto.
    + intros v Hv. apply LV in Hv. destruct (LVf v Hv) as (_ & K). destruct (cn_vh _ CN v Hv) as (K1 & K2).
      rewrite LH. destruct K as [K|[(Ka & K)|(Kb & K)]].
      * split; [rewrite K; auto|]. destruct (Z.eq_dec (vh m v) a1) as [Ea|Ea].
        { exfalso. assert (Ev : v = ve m a1) by congruence. pose proof W1 as W. rewrite <- Ev in W. specialize (W Ea). congruence. }
        destruct (Z.eq_dec (vh m v) b1) as [Eb|Eb].
        { exfalso. assert (Ev : v = ve m b1) by congruence. pose proof W2 as W. rewrite <- Ev in W. specialize (W Eb). congruence. }
        rewrite K, EV; auto.
      * rewrite K. split; auto. rewrite EV by auto. rewrite <- NY1, (cn_vnx _ CN) by auto. rewrite TW2. congruence.
      * rewrite K. split; auto. rewrite EV by auto. rewrite <- NX1, (cn_vnx _ CN) by auto. rewrite TW1. congruence.
    + intros f Hf. apply LF in Hf. destruct (cn_fh _ CN f Hf) as (K1 & K2). rewrite LH.
      destruct (Z.eq_dec f (fa m a1)) as [->|Na]; [rewrite HH1; rewrite EF by auto; auto|].
      destruct (Z.eq_dec f (fa m b1)) as [->|Nb]; [rewrite HH2; rewrite EF by auto; auto|].
      rewrite EH by auto. split; auto. rewrite EF; auto; intros K; rewrite K in K2; congruence.
    + (* faces are single cycles *)
      set (phi := fun h => if h =? a3 then a1 else if h =? b3 then b1 else h).
      assert (PA : phi a3 = a1) by (unfold phi; rewrite Z.eqb_refl; auto).
      assert (PB : phi b3 = b1) by (unfold phi; rewrite Z.eqb_refl; destruct (Z.eqb_spec b3 a3); congruence).
      assert (PO : forall h, h <> a3 -> h <> b3 -> phi h = h).
      { intros h K1 K2. unfold phi. destruct (Z.eqb_spec h a3); [congruence|]. destruct (Z.eqb_spec h b3); congruence. }
      assert (CE : forall x y, liveH m x -> nx m' x = y -> conn (liveH m') (nx m') x y).
      { intros x y Hx <-. apply conn_step. apply LH; auto. }
      assert (FAB : forall x, liveH m x -> fa m' x = fa m a1 -> conn (liveH m') (nx m') x a1).
      { intros x Hx Ex. assert (x = a1 \/ x = a2 \/ x = b3) as [->|[->| ->]].
        { destruct (Z.eq_dec x b3); auto. destruct (Z.eq_dec x a3) as [->|]; [congruence|]. rewrite EF in Ex by auto. destruct (FA x Hx Ex) as [|[|]]; auto; congruence. }
        - apply conn_refl.
        - apply CE; auto.
        - eapply conn_trans; apply CE; eauto. }
      assert (FBB : forall x, liveH m x -> fa m' x = fa m b1 -> conn (liveH m') (nx m') x b1).
      { intros x Hx Ex. assert (x = b1 \/ x = b2 \/ x = a3) as [->|[->| ->]].
        { destruct (Z.eq_dec x a3); auto. destruct (Z.eq_dec x b3) as [->|]; [congruence|]. rewrite EF in Ex by auto. destruct (FB x Hx Ex) as [|[|]]; auto; congruence. }
        - apply conn_refl.
        - apply CE; auto.
        - eapply conn_trans; apply CE; eauto. }
      apply orbit_transfer with (L := liveH m) (L' := liveH m') (f := nx m) (lab := fa m) (phi := phi) (psi := fun h => h) (N := heFill m'); auto.
      * apply CN.
      * apply CN.
      * intros h Hh. pose proof (PRE h _ Hh eq_refl) as Ph.
        destruct (Dec h) as [->|[->|[->|[->|[->|[->|(N1 & N2 & N4 & N5 & N6 & N7)]]]]]].
        -- rewrite NX1, !PO by auto. apply conn_sym, CE; auto.
        -- rewrite NX2, PA, PO by auto. apply CE; auto.
        -- rewrite N3, PA, PO by auto. apply conn_refl.
        -- rewrite NY1, !PO by auto. apply conn_sym, CE; auto.
        -- rewrite NY2, PB, PO by auto. apply CE; auto.
        -- rewrite N3', PB, PO by auto. apply conn_refl.
        -- rewrite !PO; auto; try (intros K; tauto).
      * intros x y Hx Hy Exy. apply LH in Hx. apply LH in Hy.
        destruct (Z.eq_dec (fa m' x) (fa m a1)) as [Ka|Ka].
        { left. eapply conn_trans; [apply FAB; auto|]. apply conn_sym, FAB; auto. congruence. }
        destruct (Z.eq_dec (fa m' x) (fa m b1)) as [Kb|Kb].
        { left. eapply conn_trans; [apply FBB; auto|]. apply conn_sym, FBB; auto. congruence. }
        right. assert (Q : forall z, fa m' z = fa m' x -> z <> a3 /\ z <> b3) by (intros z Ez; split; intros ->; congruence).
        destruct (Q x eq_refl) as [Q1 Q2]. destruct (Q y (eq_sym Exy)) as [Q3 Q4]. rewrite !EF in Exy by auto. rewrite !PO by auto.
        repeat (split; auto); apply conn_refl.
    + (* vertex stars are single cycles *)
      set (phi := fun h => if h =? a1 then b2 else if h =? b1 then a2 else h).
      set (psi := fun h => if h =? a1 then a3 else if h =? b1 then b3 else h).
      assert (PA : phi a1 = b2) by (unfold phi; rewrite Z.eqb_refl; auto).
      assert (PB : phi b1 = a2) by (unfold phi; rewrite Z.eqb_refl; destruct (Z.eqb_spec b1 a1); congruence).
      assert (PO : forall h, h <> a1 -> h <> b1 -> phi h = h).
      { intros h K1 K2. unfold phi. destruct (Z.eqb_spec h a1); [congruence|]. destruct (Z.eqb_spec h b1); congruence. }
      assert (QA : psi a1 = a3) by (unfold psi; rewrite Z.eqb_refl; auto).
      assert (QB : psi b1 = b3) by (unfold psi; rewrite Z.eqb_refl; destruct (Z.eqb_spec b1 a1); congruence).
      assert (QO : forall h, h <> a1 -> h <> b1 -> psi h = h).
      { intros h K1 K2. unfold psi. destruct (Z.eqb_spec h a1); [congruence|]. destruct (Z.eqb_spec h b1); congruence. }
      assert (CE : forall x y, liveH m x -> nx m' (tw x) = y -> conn (liveH m') (ro m') x y).
      { intros x y Hx <-. apply (conn_step (liveH m') (ro m')). apply LH; auto. }
      assert (R1 : conn (liveH m') (ro m') a1 a3) by (apply CE; auto; rewrite TW1; auto).
      assert (R2 : conn (liveH m') (ro m') b1 b3) by (apply CE; auto; rewrite TW2; auto).
      apply orbit_transfer with (L := liveH m) (L' := liveH m') (f := ro m) (lab := ve m) (phi := phi) (psi := psi) (N := heFill m'); auto.
      * apply ro_live; auto.
      * apply CN.
      * intros h Hh. unfold ro. assert (Hth : liveH m (tw h)) by (apply CN; auto). pose proof (PRE (tw h) _ Hth eq_refl) as Ph.
        assert (TWN : tw h <> a1 -> tw h <> b1 -> h <> a1 /\ h <> b1) by (intros; split; intros ->; congruence).
        destruct (Dec (tw h)) as [K|[K|[K|[K|[K|[K|(N1 & N2 & N4 & N5 & N6 & N7)]]]]]].
        -- rewrite (TWS _ K), PB, TW2, NX1, PO by auto. apply conn_refl.
        -- rewrite K, NX2. destruct TWN; [congruence..|]. rewrite !PO by auto. eapply conn_trans; [apply CE; eauto|rewrite K, E3; exact R1].
        -- rewrite K, N3, PA. destruct TWN; [congruence..|]. rewrite !PO by auto. apply CE; auto. rewrite K; auto.
        -- rewrite (TWS' _ K), PA, TW1, NY1, PO by auto. apply conn_refl.
        -- rewrite K, NY2. destruct TWN; [congruence..|]. rewrite !PO by auto. eapply conn_trans; [apply CE; eauto|rewrite K, E6; exact R2].
        -- rewrite K, N3', PB. destruct TWN; [congruence..|]. rewrite !PO by auto. apply CE; auto. rewrite K; auto.
        -- destruct TWN; auto. rewrite !PO; auto; try (intros K; tauto).
      * intros x y Hx Hy Exy. apply LH in Hx. apply LH in Hy. right.
        assert (Q : forall z, liveH m z -> liveH m (psi z) /\ ve m (psi z) = ve m' z /\ conn (liveH m') (ro m') z (phi (psi z))).
        { intros z Hz. destruct (Z.eq_dec z a1) as [->|]; [rewrite QA, PO by auto; auto|].
          destruct (Z.eq_dec z b1) as [->|]; [rewrite QB, PO by auto; auto|]. rewrite QO, PO, EV by auto. split; [auto|split; [auto|apply conn_refl]]. }
        destruct (Q x Hx) as (Q1 & Q2 & Q3). destruct (Q y Hy) as (Q4 & Q5 & Q6). rewrite Q2, Q5. auto.
    + intros h Hh Hm. apply LH in Hh. rewrite EX by auto. apply CN; auto.
    + intros h Hh Hx. apply LH in Hh. assert (Hth : liveH m (tw h)) by (apply CN; auto). rewrite EX in Hx by auto.
      assert (h <> a1) by (intros ->; rewrite TW1 in Hx; auto). assert (h <> b1) by (intros ->; rewrite TW2 in Hx; auto).
      rewrite EV by auto. pose proof (cn_vbd _ CN h Hh Hx) as K. rewrite EW; congruence.
  - pose proof (cn_ve _ CN _ L1) as [K1 _]. pose proof (cn_ve _ CN _ LB) as [K2 _]. destruct SG as [G1 G2]. pose proof (cn_fa _ CN _ L1) as K3. pose proof (cn_fa _ CN _ LB) as K4.
    assert (K5 : ~ fFill m <= fa m a1 < fCap m - bFill m) by (destruct K3 as [[K _]|[K _]]; clear -K; lia).
    assert (K6 : ~ fFill m <= fa m b1 < fCap m - bFill m) by (destruct K4 as [[K _]|[K _]]; clear -K; lia).
    split; rewrite S7, ?S9, ?S10, ?S11, ?S14, ?S15.
    + intros v Hv. rewrite EG; [apply G1; exact Hv|intros ->; clear -Hv K1; lia|intros ->; clear -Hv K2; lia].
    + intros f Hf. rewrite EH; [apply G2; exact Hf|intros ->; auto..].
Qed.
End FlipValid.

(** running the program *)
Lemma isInterior_ok m h : Valid m -> liveH m h -> isInterior m h = Ok (negb (fFill m <=? fa m h)).
Proof.
  intros V H. unfold isInterior. rewrite faceOf_ok by (apply liveH_bnd in H; auto; lia). cbn [bind].
  f_equal. unfold isLoop. pose proof (liveFL_nonneg m V _ (cn_fa _ (va_cn _ V) h H)). lia.
Qed.
Lemma eIsBoundary_ok m e : Valid m -> liveH m (eHe e) -> eIsBoundary m e = Ok (fFill m <=? fa m (tw (eHe e))).
Proof.
  intros V H. unfold eIsBoundary. rewrite isInterior_ok; auto. cbn [bind]. rewrite negb_involutive. reflexivity.
  apply V; auto.
Qed.
Lemma vIsBoundary_ok m v : Valid m -> liveV m v -> vIsBoundary m v = Ok (fFill m <=? fa m (tw (vh m v))).
Proof.
  intros V H. unfold vIsBoundary. rewrite vHe_ok by (apply liveV_bnd in H; auto; lia). cbn [bind].
  destruct (cn_vh _ (va_cn _ V) v H) as [Hv _].
  rewrite isInterior_ok; auto. cbn [bind]. rewrite negb_involutive. reflexivity. apply V; auto.
Qed.

Lemma flip_run m e p : Valid m -> liveH m (eHe e) -> nx m (eHe e) <> eHe e -> nx m (tw (eHe e)) <> tw (eHe e) ->
  let a1 := eHe e in let a2 := nx m a1 in let a3 := nx m a2 in
  let b1 := tw a1 in let b2 := nx m b1 in let b3 := nx m b2 in
  (flip m e p = Ok (m, false) /\ (~ FlipPre m a1 \/ (p = true /\ exists h, liveH m h /\ ve m h = ve m a3 /\ ve m (tw h) = ve m b3))) \/
  (exists m', flip m e p = Ok (m', true) /\ FlipPre m a1 /\ FlipEff m m' a1 a2 a3 b1 b2 b3 /\
     (p = true -> forall h, liveH m h -> ve m h = ve m a3 -> ve m (tw h) <> ve m b3)).
Proof.
  intros V L Ma Mb a1 a2 a3 b1 b2 b3. pose proof (va_cn _ V) as CN. pose proof (va_st _ V) as ST.
  fold a1 in L, Ma, Mb.
  assert (LB : liveH m b1) by (apply CN; auto).
  assert (LA2 : liveH m a2) by (apply CN; auto). assert (LA3 : liveH m a3) by (apply CN; auto).
  assert (LB2 : liveH m b2) by (apply CN; auto). assert (LB3 : liveH m b3) by (apply CN; auto).
  assert (Ia : ~ ext m a1) by (apply CN; auto; unfold a1, eHe; lia).
  unfold flip. rewrite eIsBoundary_ok by auto. cbn [bind]. change (tw (eHe e)) with b1. change (eHe e) with a1.
  destruct (Z.leb_spec (fFill m) (fa m b1)) as [Hb|Hb].
  { left. split; auto. left. intros []. apply fp_ib0. exact Hb. }
  rewrite (next_live m V a1 L). cbn [bind]. fold a2. rewrite (next_live m V a2 LA2). cbn [bind]. fold a3.
  rewrite (next_live m V a3 LA3). cbn [bind].
  destruct (Z.eqb_spec (nx m a3) a1) as [Ta|Ta]; cbn [negb]; [|left; split; [auto|left; intros []; auto]].
  rewrite (next_live m V b1 LB). cbn [bind]. fold b2. rewrite (next_live m V b2 LB2). cbn [bind]. fold b3.
  rewrite (next_live m V b3 LB3). cbn [bind].
  destruct (Z.eqb_spec (nx m b3) b1) as [Tb|Tb]; cbn [negb]; [|left; split; [auto|left; intros []; auto]].
  destruct (Z.eqb_spec a2 b1) as [D1|D1]; cbn [orb]; [left; split; [auto|left; intros []; auto]|].
  destruct (Z.eqb_spec b2 a1) as [D2|D2]; [left; split; [auto|left; intros []; auto]|].
  assert (P : FlipPre m a1) by (constructor; auto; unfold ext; fold b1; lia).
  assert (B : forall h, liveH m h -> 0 <= h < zlen (heNext m) /\ 0 <= h < zlen (heVertex m) /\ 0 <= h < zlen (heFace m)).
  { intros h Hh. apply liveH_bnd in Hh; auto. tauto. }
  pose proof (B _ L) as BA1. pose proof (B _ LA2) as BA2. pose proof (B _ LA3) as BA3.
  pose proof (B _ LB) as BB1. pose proof (B _ LB2) as BB2. pose proof (B _ LB3) as BB3. clear B.
  pose proof (liveV_bnd m V _ (cn_ve _ CN _ L)) as BV1. pose proof (liveV_bnd m V _ (cn_ve _ CN _ LB)) as BV2.
  pose proof (liveFL_bnd m V _ (cn_fa _ CN _ L)) as BF1. pose proof (liveFL_bnd m V _ (cn_fa _ CN _ LB)) as BF2.
  destruct (tri_facts m V a1 L Ta Ma) as (_ & _ & N3 & NE1 & NE2 & NE3 & FA2 & FA3 & FA).
  destruct (tri_facts m V b1 LB Tb Mb) as (_ & _ & N3' & NE1' & NE2' & NE3' & FB2 & FB3 & FB).
  fold a2 a3 in NE1, NE2, NE3, FA2, FA3, FA. fold b2 b3 in NE1', NE2', NE3', FB2, FB3, FB.
  assert (FD : fa m b1 <> fa m a1).
  { intros Ef. destruct (FA b1 LB Ef) as [H|[H|H]]; [exact (tw_neq a1 H)|congruence|].
    apply D2. unfold b2. rewrite H. exact Ta. }
  assert (X : forall x y, (x = a1 \/ x = a2 \/ x = a3) -> (y = b1 \/ y = b2 \/ y = b3) -> x <> y).
  { intros x y Hx Hy Exy. apply FD. assert (fa m x = fa m a1) by (destruct Hx as [->|[->| ->]]; auto).
    assert (fa m y = fa m b1) by (destruct Hy as [->|[->| ->]]; auto). congruence. }
  pose proof (X a1 b2 ltac:(auto) ltac:(auto)). pose proof (X a1 b3 ltac:(auto) ltac:(auto)). pose proof (X a1 b1 ltac:(auto) ltac:(auto)).
  pose proof (X a2 b1 ltac:(auto) ltac:(auto)). pose proof (X a2 b2 ltac:(auto) ltac:(auto)). pose proof (X a2 b3 ltac:(auto) ltac:(auto)).
  pose proof (X a3 b1 ltac:(auto) ltac:(auto)). pose proof (X a3 b2 ltac:(auto) ltac:(auto)). pose proof (X a3 b3 ltac:(auto) ltac:(auto)).
  clear X.
  clearbody a2 a3 b2 b3 b1 a1. clear N3 N3' D1 D2 Ma Mb.
  do 4 (rewrite vertexOf_ok by (clear -BA1 BA2 BA3 BB1 BB2 BB3; lia); cbn [bind]).
  set (dup := if p then _ else _).
  assert (DUP : exists d, dup = Ok d /\ (d = true -> p = true /\ exists h, liveH m h /\ ve m h = ve m a3 /\ ve m (tw h) = ve m b3) /\
     (d = false -> p = true -> forall h, liveH m h -> ve m h = ve m a3 -> ve m (tw h) <> ve m b3)).
  { unfold dup. destruct p; [|exists false; repeat split; auto; discriminate].
    destruct (adjVertices_ok m V (ve m a3)) as (l & El & Rl); [apply CN; auto|]. rewrite El. cbn [bind].
    exists (existsb (Z.eqb (ve m b3)) l). split; auto. split.
    - intros Hex. split; auto. apply existsb_exists in Hex as (w & Hw & Ew). apply Z.eqb_eq in Ew. subst w. apply Rl in Hw. exact Hw.
    - intros Hex _ h Hh E1 E2. assert (K : existsb (Z.eqb (ve m b3)) l = true); [|congruence].
      apply existsb_exists. exists (ve m b3). split; [|apply Z.eqb_refl]. apply Rl. exists h; auto. }
  destruct DUP as (d & -> & Dt & Df). cbn [bind]. destruct d; [left; split; [auto|right; auto]|]. right. clear Dt.
  specialize (Df eq_refl).
  assert (WV : 0 <= ve m a1 < zlen (vHalfedge m) /\ 0 <= ve m b1 < zlen (vHalfedge m)) by (clear -BV1 BV2; lia).
  clear BV1 BV2 Ta Tb V CN ST Hb Ia.
  eexists. split.
  { do 2 (rewrite faceOf_ok by (clear -BA1 BA2 BA3 BB1 BB2 BB3; lia); cbn [bind]).
    rewrite vHe_ok by (clear -WV; lia); cbn [bind].
    rewrite setVHe_if_ok by (clear -WV; lia); cbn [bind].
    rewrite vHe_ok by (clear -WV; bnd); cbn [bind].
    rewrite setVHe_if_ok by (clear -WV; bnd); cbn [bind].
    rewrite vh_wvi by (clear -WV; lia).
    do 2 (rewrite setFHe_ok by (clear -BF1 BF2; bnd); cbn [bind]).
    do 6 (rewrite setNext_ok by (clear -BA1 BA2 BA3 BB1 BB2 BB3; bnd); cbn [bind]).
    do 2 (rewrite setVertex_ok by (clear -BA1 BA2 BA3 BB1 BB2 BB3; bnd); cbn [bind]).
    do 2 (rewrite setFace_ok by (clear -BA1 BA2 BA3 BB1 BB2 BB3; bnd); cbn [bind]).
    reflexivity. }
  split; auto. split; [|exact Df]. clear P Df L LB LA2 LA3 LB2 LB3 FA FB.
  repeat match goal with H : ?x <> ?y |- _ => first [match goal with H2 : y <> x |- _ => fail 2 end | pose proof (not_eq_sym H)] end.
  assert (EQ : forall x y, x <> y -> (x =? y) = false) by (intros x y K; apply Z.eqb_neq; exact K).
  constructor; try (unfold scal, lens; proj; rewrite ?zlen_updZ, ?zlen_if; reflexivity); try (intros h; intros);
   view; rewrite ?Z.eqb_refl; repeat (rewrite EQ by auto); rewrite ?Z.eqb_refl; try reflexivity.
  - destruct (Z.eqb_spec (vh m (ve m a1)) a1); [|congruence]. rewrite (Z.eqb_sym (ve m b1)). simpl.
    destruct (Z.eqb_spec (ve m a1) (ve m b1)); [rewrite EQ by auto; reflexivity|]. rewrite andb_false_r. reflexivity.
  - destruct (Z.eqb_spec (vh m (ve m a1)) a1); simpl; [|rewrite h, Z.eqb_refl; reflexivity].
    destruct (Z.eqb_spec (ve m b1) (ve m a1)); [congruence|]. rewrite h, Z.eqb_refl. reflexivity.
  - destruct (Z.eqb_spec (vh m (ve m a1)) a1) as [K|K]; simpl.
    + destruct (Z.eqb_spec h (ve m a1)); [congruence|]. destruct (Z.eqb_spec h (ve m b1)); [|rewrite andb_false_r; reflexivity].
      subst h. rewrite (EQ (ve m b1)) by auto. rewrite EQ by auto. reflexivity.
    + destruct (Z.eqb_spec h (ve m b1)); [|rewrite andb_false_r; reflexivity]. subst h. rewrite EQ by auto. reflexivity.
  - rewrite (EQ h (ve m b1)), (EQ h (ve m a1)), !andb_false_r by auto. reflexivity.
Qed.

(** flipping again *)
Section FlipAgain.
Context (m m' : mesh) (e : Z).
Let a1 := eHe e. Let a2 := nx m a1. Let a3 := nx m a2. Let b1 := tw a1. Let b2 := nx m b1. Let b3 := nx m b2.
Context (V : Valid m) (P : FlipPre m a1) (E : FlipEff m m' a1 a2 a3 b1 b2 b3).

Lemma flip_six : fa m b1 <> fa m a1 /\ a1 <> b1 /\ a1 <> b2 /\ a1 <> b3 /\ a2 <> b1 /\ a2 <> b2 /\ a2 <> b3 /\ a3 <> b1 /\ a3 <> b2 /\ a3 <> b3
  /\ a1 <> a2 /\ a1 <> a3 /\ a2 <> a3 /\ b1 <> b2 /\ b1 <> b3 /\ b2 <> b3.
Proof.
  destruct P as [L1 Ia Ib Ta Tb Ma Mb D1 D2]. pose proof (va_cn _ V) as CN.
  assert (LB : liveH m b1) by (apply CN; auto).
  destruct (tri_facts m V a1 L1 Ta Ma) as (LA2 & LA3 & N3 & NE1 & NE2 & NE3 & FA2 & FA3 & FA).
  destruct (tri_facts m V b1 LB Tb Mb) as (LB2 & LB3 & N3' & NE1' & NE2' & NE3' & FB2 & FB3 & FB).
  fold a2 a3 in LA2, LA3, N3, NE1, NE2, NE3, FA2, FA3, FA. fold b2 b3 in LB2, LB3, N3', NE1', NE2', NE3', FB2, FB3, FB.
  fold b1 in D1, D2. fold a2 in D1. fold b2 in D2.
  assert (FD : fa m b1 <> fa m a1).
  { intros Ef. destruct (FA b1 LB Ef) as [H|[H|H]]; [exact (tw_neq a1 H)|congruence|]. apply D2. unfold b2. rewrite H. exact N3. }
  split; auto.
  assert (X : forall x y, (x = a1 \/ x = a2 \/ x = a3) -> (y = b1 \/ y = b2 \/ y = b3) -> x <> y).
  { intros x y Hx Hy Exy. apply FD. assert (fa m x = fa m a1) by (destruct Hx as [->|[->| ->]]; auto).
    assert (fa m y = fa m b1) by (destruct Hy as [->|[->| ->]]; auto). congruence. }
  repeat (split; [auto|]); auto.
Qed.

Lemma flip_pre_again : FlipPre m' a1 /\ nx m' a1 = b3 /\ nx m' b3 = a2 /\ nx m' b1 = a3 /\ nx m' a3 = b2.
Proof.
  destruct flip_six as (FD & D3 & D4 & K1 & D6 & D7 & D8 & K3 & D10 & D11 & D12 & K7 & D14 & D15 & K6 & D17).
  assert (V' : Valid m') by (eapply flip_valid; eauto).
  destruct P as [L1 Ia Ib Ta Tb Ma Mb D1 D2].
  destruct E as [Sc Le _ _ E1 E2 E3 E4 E5 E6 EN V1 V2 EV F1 F2 EF H1 H2 EH W1 W2 EW EG].
  unfold scal in Sc. injection Sc as S1 S2 S3 S4 S5 S6 S7 S8 S9 S10 S11 S12 S13 S14 S15.
  fold b1 in Ib, D1, D2.
  assert (TW1 : tw a1 = b1) by reflexivity.
  assert (LB2 : liveH m b3) by (apply V, V, V; auto).
  clearbody a1 a2 a3 b1 b2 b3.
  split; [|auto]. constructor; rewrite ?TW1, ?E1, ?E2, ?E3, ?E4, ?E5, ?E6; auto.
  - split; [rewrite S7; exact (proj1 L1)|]. rewrite E1. destruct LB2 as [K _]. clear -K. lia.
  - unfold ext. rewrite EF by auto. rewrite S10. exact Ia.
  - unfold ext. rewrite EF by auto. rewrite S10. exact Ib.
Qed.
End FlipAgain.

(** exchange of two values *)
Definition swap (a b x : Z) : Z := if x =? a then b else if x =? b then a else x.
Lemma swap_l a b : swap a b a = b.
Proof. unfold swap. rewrite Z.eqb_refl. reflexivity. Qed.
Lemma swap_r a b : swap a b b = a.
Proof. unfold swap. rewrite Z.eqb_refl. destruct (Z.eqb_spec b a); congruence. Qed.
Lemma swap_o a b x : x <> a -> x <> b -> swap a b x = x.
Proof. intros. unfold swap. destruct (Z.eqb_spec x a); [congruence|]. destruct (Z.eqb_spec x b); congruence. Qed.

Lemma flip_succeeds m e : Valid m -> FlipPre m (eHe e) ->
  exists m', flip m e false = Ok (m', true) /\ Valid m' /\ FlipPre m' (eHe e) /\
   FlipEff m m' (eHe e) (nx m (eHe e)) (nx m (nx m (eHe e))) (tw (eHe e)) (nx m (tw (eHe e))) (nx m (nx m (tw (eHe e)))).
Proof.
  intros V P. pose proof P as [L1 Ia Ib Ta Tb Ma Mb D1 D2].
  destruct (flip_run m e false V L1 Ma Mb) as [(_ & [K|(K & _)])|(m' & F & _ & Ef & _)]; [contradiction|discriminate|].
  exists m'. split; auto. split; [eapply flip_valid; eauto|]. split; auto. eapply flip_pre_again; eauto.
Qed.

(** two flips: the edge's halfedges change places *)
Lemma flip_twice m m1 m2 e : Valid m -> FlipPre m (eHe e) ->
  let a1 := eHe e in let b1 := tw a1 in
  FlipEff m m1 a1 (nx m a1) (nx m (nx m a1)) b1 (nx m b1) (nx m (nx m b1)) ->
  FlipEff m1 m2 a1 (nx m1 a1) (nx m1 (nx m1 a1)) b1 (nx m1 b1) (nx m1 (nx m1 b1)) ->
  scal m2 = scal m /\
  (forall h, liveH m h -> nx m2 (swap a1 b1 h) = swap a1 b1 (nx m h)) /\
  (forall h, ve m2 (swap a1 b1 h) = ve m h) /\
  (forall h, liveH m h -> fa m2 (swap a1 b1 h) = swap (fa m a1) (fa m b1) (fa m h)).
Proof.
  intros V P a1 b1 E E'. destruct (flip_six m e V P) as (FD & D1 & D2 & D3 & D4 & D5 & D6 & D7 & D8 & D9 & _).
  assert (V' : Valid m1) by (eapply flip_valid; eauto).
  destruct (flip_pre_again m m1 e V P E) as (P' & Q1 & Q2 & Q3 & Q4).
  fold a1 b1 in FD, D1, D2, D3, D4, D5, D6, D7, D8, D9, P', Q1, Q2, Q3, Q4. rewrite Q1, Q2, Q3, Q4 in E'.
  pose proof (va_cn _ V) as CN.
  destruct P as [L1 Ia Ib Ta Tb Ma Mb _ _]. fold a1 in L1, Ia, Ta, Ma. fold b1 in Ib, Tb, Mb.
  assert (LB : liveH m b1) by (apply CN; auto).
  destruct (tri_facts m V a1 L1 Ta Ma) as (LA2 & LA3 & N3 & NE1 & NE2 & NE3 & FA2 & FA3 & FA).
  destruct (tri_facts m V b1 LB Tb Mb) as (LB2 & LB3 & N3' & NE1' & NE2' & NE3' & FB2 & FB3 & FB).
  pose proof (cn_vnx _ CN a1 L1) as VA. pose proof (cn_vnx _ CN b1 LB) as VB.
  assert (TW1 : tw a1 = b1) by reflexivity. assert (TW2 : tw b1 = a1) by apply tw_tw.
  rewrite TW1 in VA. rewrite TW2 in VB.
  set (a2 := nx m a1) in *. set (a3 := nx m a2) in *. set (b2 := nx m b1) in *. set (b3 := nx m b2) in *.
  assert (NA1 : nx m a1 = a2) by reflexivity. assert (NA2 : nx m a2 = a3) by reflexivity.
  assert (NB1 : nx m b1 = b2) by reflexivity. assert (NB2 : nx m b2 = b3) by reflexivity.
  clear Q1 Q2 Q3 Q4 Ta Tb Ma Mb P'. clearbody a1 b1 a2 a3 b2 b3.
  destruct E as [Sc Le _ _ E1 E2 E3 E4 E5 E6 EN V1 V2 EV F1 F2 EF _ _ _ _ _ _ _].
  destruct E' as [Sc' Le' _ _ E1' E2' E3' E4' E5' E6' EN' V1' V2' EV' F1' F2' EF' _ _ _ _ _ _].
  split; [congruence|].
  assert (Dec : forall h, h = a1 \/ h = a2 \/ h = a3 \/ h = b1 \/ h = b2 \/ h = b3 \/
                          (h <> a1 /\ h <> a2 /\ h <> a3 /\ h <> b1 /\ h <> b2 /\ h <> b3)) by
    (intros h; destruct (Z.eq_dec h a1); [auto|]; destruct (Z.eq_dec h a2); [auto|]; destruct (Z.eq_dec h a3); [auto|];
     destruct (Z.eq_dec h b1); [auto|]; destruct (Z.eq_dec h b2); [auto 6|]; destruct (Z.eq_dec h b3); [auto 7|]; do 6 right; auto 7).
  assert (PRE : forall h x, liveH m h -> nx m h = x -> (x = a1 -> h = a3) /\ (x = a2 -> h = a1) /\ (x = a3 -> h = a2)
             /\ (x = b1 -> h = b3) /\ (x = b2 -> h = b1) /\ (x = b3 -> h = b2)).
  { intros h x Hh Ex. repeat split; intros ->; apply (cn_inj _ CN); auto; congruence. }
  pose proof (swap_l a1 b1) as SL. pose proof (swap_r a1 b1) as SR. pose proof (swap_o a1 b1) as SO.
  pose proof (swap_l (fa m a1) (fa m b1)) as TL. pose proof (swap_r (fa m a1) (fa m b1)) as TR. pose proof (swap_o (fa m a1) (fa m b1)) as TO.
  split; [|split].
  - intros h Hh. pose proof (PRE h _ Hh eq_refl) as Ph.
    destruct (Dec h) as [->|[->|[->|[->|[->|[->|(N1 & N2 & N4 & N5 & N6 & N7)]]]]]].
    + rewrite SL, NA1, SO by auto. auto.
    + rewrite NA2, !SO by auto. auto.
    + rewrite N3, SL, SO by auto. auto.
    + rewrite SR, NB1, SO by auto. auto.
    + rewrite NB2, !SO by auto. auto.
    + rewrite N3', SR, SO by auto. auto.
    + rewrite !SO by (auto; intros K; tauto). rewrite EN', EN by auto. auto.
  - intros h. destruct (Dec h) as [->|[->|[->|[->|[->|[->|(N1 & N2 & N4 & N5 & N6 & N7)]]]]]];
    [rewrite SL|rewrite SO by auto|rewrite SO by auto|rewrite SR|rewrite SO by auto|rewrite SO by auto|rewrite SO by auto];
    try (rewrite EV', EV by auto; reflexivity).
    + rewrite V2', EV by auto. auto.
    + rewrite V1', EV by auto. auto.
  - intros h Hh. destruct (Dec h) as [->|[->|[->|[->|[->|[->|(N1 & N2 & N4 & N5 & N6 & N7)]]]]]];
    [rewrite SL|rewrite SO by auto|rewrite SO by auto|rewrite SR|rewrite SO by auto|rewrite SO by auto|rewrite SO by auto];
    rewrite ?FA2, ?FA3, ?FB2, ?FB3, ?TL, ?TR, ?F1', ?F2'.
    + rewrite EF', EF by auto. auto.
    + rewrite EF by auto. auto.
    + rewrite EF' by auto. auto.
    + rewrite EF', EF by auto. auto.
    + rewrite EF by auto. auto.
    + rewrite EF' by auto. auto.
    + rewrite EF', EF by auto. rewrite TO; auto; intros K; [destruct (FA h Hh K) as [|[|]]|destruct (FB h Hh K) as [|[|]]]; congruence.
Qed.
