(** ManifoldSurfaceMesh::switchHalfedgeSides *)
From Verif Require Import Base MeshModel MeshSpec MeshBase MeshExec MeshOrbit MeshAlloc MeshFlip MeshOpSpec MeshIso.
Open Scope Z_scope.

Record SwEff (m m' : mesh) (a b p q : Z) : Prop := {
  se_scal : scal m' = scal m; se_lens : lens m' = lens m;
  se_a : nx m' a = nx m b; se_b : nx m' b = nx m a; se_p : nx m' p = b; se_q : nx m' q = a;
  se_nx : forall h, h <> a -> h <> b -> h <> p -> h <> q -> nx m' h = nx m h;
  se_va : ve m' a = ve m b; se_vb : ve m' b = ve m a; se_ve : forall h, h <> a -> h <> b -> ve m' h = ve m h;
  se_fa : fa m' a = fa m b; se_fb : fa m' b = fa m a; se_fo : forall h, h <> a -> h <> b -> fa m' h = fa m h;
  se_fha : fh m' (fa m a) = b; se_fhb : fa m a <> fa m b -> fh m' (fa m b) = a;
  se_fh : forall f, f <> fa m a -> f <> fa m b -> fh m' f = fh m f;
  se_vh : ve m a <> ve m b -> forall v, liveV m v -> vh m' v = exch a b (vh m v);
  se_vl : ve m a = ve m b -> vh m' (ve m a) = (if isLoop m (fa m b) || (vh m (ve m a) =? a) || (vh m (ve m a) =? b) then b else vh m (ve m a));
  se_vo : forall v, v <> ve m a -> v <> ve m b -> vh m' v = vh m v }.

Lemma exch_l a b : exch a b a = b. Proof. unfold exch. rewrite Z.eqb_refl. reflexivity. Qed.
Lemma exch_r a b : exch a b b = a. Proof. unfold exch. destruct (Z.eqb_spec b a); [congruence|]. rewrite Z.eqb_refl. reflexivity. Qed.
Lemma exch_o a b x : x <> a -> x <> b -> exch a b x = x.
Proof. intros. unfold exch. destruct (Z.eqb_spec x a), (Z.eqb_spec x b); congruence. Qed.
Lemma exch_exch a b x : exch a b (exch a b x) = x.
Proof. unfold exch at 2. destruct (Z.eqb_spec x a) as [->|]; [apply exch_r|]. destruct (Z.eqb_spec x b) as [->|]; [apply exch_l|]. apply exch_o; auto. Qed.

(** the two sides of the edge are not consecutive and neither is a face by itself *)

Lemma switch_run m e : Valid m -> liveH m (eHe e) -> plainEdge m (eHe e) ->
  exists m' p q, switchHalfedgeSides m e = Ok m' /\ liveH m p /\ nx m p = eHe e /\ liveH m q /\ nx m q = tw (eHe e) /\ SwEff m m' (eHe e) (tw (eHe e)) p q.
Proof.
  intros V L (N1 & N2 & N3 & N4). pose proof (va_cn _ V) as CN. set (a := eHe e) in *. set (b := tw a) in *.
  assert (Lb : liveH m b) by (apply CN; auto).
  destruct (prev_ok m V a L) as (p & Lp & Np & Fp & Pp & _). destruct (prev_ok m V b Lb) as (q & Lq & Nq & Fq & Pq & _).
  assert (Ia : ~ ext m a) by (apply CN; auto; unfold a, eHe; lia).
  unfold switchHalfedgeSides. fold a. fold b. rewrite Pp, Pq.
  assert (B : forall h, liveH m h -> 0 <= h < zlen (heNext m) /\ 0 <= h < zlen (heVertex m) /\ 0 <= h < zlen (heFace m)).
  { intros h Hh. apply liveH_bnd in Hh; auto. tauto. }
  pose proof (B _ L) as Ba. pose proof (B _ Lb) as Bb. pose proof (B _ Lp) as Bp. pose proof (B _ Lq) as Bq. clear B.
  pose proof (liveV_bnd m V _ (cn_ve _ CN _ L)) as BV1. pose proof (liveV_bnd m V _ (cn_ve _ CN _ Lb)) as BV2.
  pose proof (liveFL_bnd m V _ (cn_fa _ CN _ L)) as BF1. pose proof (liveFL_bnd m V _ (cn_fa _ CN _ Lb)) as BF2.
  assert (BND : (0 <= a < zlen (heNext m) /\ 0 <= a < zlen (heVertex m) /\ 0 <= a < zlen (heFace m)) /\ (0 <= b < zlen (heNext m) /\ 0 <= b < zlen (heVertex m) /\ 0 <= b < zlen (heFace m))
   /\ 0 <= p < zlen (heNext m) /\ 0 <= q < zlen (heNext m) /\ 0 <= ve m a < zlen (vHalfedge m) /\ 0 <= ve m b < zlen (vHalfedge m) /\ 0 <= fa m a < zlen (fHalfedge m) /\ 0 <= fa m b < zlen (fHalfedge m)).
  { clear -Ba Bb Bp Bq BV1 BV2 BF1 BF2. lia. }
  assert (LF : isLoop m (fa m a) = false). { unfold isLoop. unfold ext in Ia. clear -Ia BF1. lia. }
  assert (VBb : forall v, liveV m v -> vh m v = a -> v = ve m a) by (intros v Hv K; rewrite <- K; symmetry; apply (cn_vh _ CN); auto).
  assert (VBc : forall v, liveV m v -> vh m v = b -> v = ve m b) by (intros v Hv K; rewrite <- K; symmetry; apply (cn_vh _ CN); auto).
  assert (VBD : isLoop m (fa m b) = true -> vh m (ve m a) = a).
  { intros K. apply (cn_vbd _ CN); auto. unfold ext. fold b. unfold isLoop in K. clear -K BF2. lia. }
  assert (ab : a <> b) by (intros K; apply (tw_neq a); auto).
  assert (pa : p <> a) by congruence. assert (pb : p <> b) by congruence. assert (qa : q <> a) by congruence. assert (qb : q <> b) by congruence.
  assert (pq : p <> q) by congruence.
  clear Ba Bb Bp Bq BV1 BV2 BF1 BF2 Fp Pp Fq Pq.
  eexists _, p, q. split.
  { do 2 (rewrite next_ok by (clear -BND; lia); cbn [bind]). do 2 (rewrite faceOf_ok by (clear -BND; lia); cbn [bind]). do 2 (rewrite vertexOf_ok by (clear -BND; lia); cbn [bind]).
    do 4 (rewrite setNext_ok by (clear -BND; bnd); cbn [bind]). do 2 (rewrite setFace_ok by (clear -BND; bnd); cbn [bind]). do 2 (rewrite setVertex_ok by (clear -BND; bnd); cbn [bind]).
    do 2 (rewrite setFHe_ok by (clear -BND; bnd); cbn [bind]).
    rewrite vHe_ok by (clear -BND; bnd). cbn [bind]. rewrite setVHe_if_ok by (clear -BND; bnd). cbn [bind].
    rewrite vHe_ok by (clear -BND; bnd). cbn [bind]. rewrite setVHe_if_ok by (clear -BND; bnd). cbn [bind]. reflexivity. }
  split; [auto|]. split; [auto|]. split; [auto|]. split; [auto|].
  rewrite vh_wvi by (clear -BND; bnd). rewrite !vh_wfhe, !vh_wvertex, !vh_wface, !vh_wnext.
  unfold isLoop; proj; fold (isLoop m (fa m a)); fold (isLoop m (fa m b)). rewrite LF. cbn [orb].
  clear N1 N2 N3 N4 Np Nq Lp Lq Ia.
  repeat match goal with H : ?x <> ?y |- _ => first [match goal with H2 : y <> x |- _ => fail 2 end | pose proof (not_eq_sym H)] end.
  assert (EQ : forall x y, x <> y -> (x =? y) = false) by (intros x y K; apply Z.eqb_neq; exact K).
  constructor; try (unfold scal, lens; proj; rewrite ?zlen_updZ, ?zlen_if; reflexivity); intros;
   view; rewrite ?Z.eqb_refl; repeat (rewrite EQ by auto); rewrite ?Z.eqb_refl; try reflexivity.
  - (* vertices, no loop edge *)
    rewrite (EQ (ve m a) (ve m b)) by auto. rewrite andb_false_r.
    destruct (Z.eqb_spec v (ve m a)) as [->|K1].
    + rewrite andb_true_r, (EQ (ve m a) (ve m b)), andb_false_r by auto.
      destruct (isLoop m (fa m b)) eqn:IL; cbn [orb]; [rewrite VBD, exch_l; auto|].
      destruct (Z.eqb_spec (vh m (ve m a)) a) as [Ka|Ka]; [rewrite Ka, exch_l; auto|]. rewrite exch_o; auto.
    + rewrite andb_false_r. destruct (Z.eqb_spec v (ve m b)) as [->|K2].
      * rewrite andb_true_r. destruct (Z.eqb_spec (vh m (ve m b)) b) as [Kb|Kb]; [rewrite Kb, exch_r; auto|]. rewrite exch_o; auto.
      * rewrite andb_false_r. rewrite exch_o; auto.
  - (* loop edge *)
    match goal with Hl : ve m a = ve m b |- _ => rewrite <- Hl end. rewrite !Z.eqb_refl, !andb_true_r.
    destruct (isLoop m (fa m b)) eqn:IL; cbn [orb]; auto.
    destruct (Z.eqb_spec (vh m (ve m a)) b) as [Kb|Kb].
    + rewrite Z.eqb_refl, orb_true_r. reflexivity.
    + rewrite orb_false_r. reflexivity.
  - rewrite (EQ v (ve m a)), (EQ v (ve m b)) by auto. rewrite !andb_false_r. reflexivity.
Qed.

Section SwValid.
Context (m m' : mesh) (a p q : Z).
Let b := tw a.
Context (V : Valid m) (La : liveH m a) (Ia : ~ ext m a) (PE : plainEdge m a) (Lp : liveH m p) (Np : nx m p = a) (Lq : liveH m q) (Nq : nx m q = b).
Context (E : SwEff m m' a b p q).

Lemma sw_nx h : liveH m h -> nx m' (exch a b h) = exch a b (nx m h).
Proof.
  intros Hh. destruct E as [_ _ Ea Eb Ep Eq Eo _ _ _ _ _ _ _ _ _ _ _ _]. destruct PE as (P1 & P2 & P3 & P4). fold b in P2, P3, P4. pose proof (cn_inj _ (va_cn _ V)) as INJ.
  destruct (Z.eq_dec h a) as [->|Na]; [rewrite exch_l, exch_o by auto; exact Eb|].
  destruct (Z.eq_dec h b) as [->|Nb]; [rewrite exch_r, exch_o by auto; exact Ea|].
  rewrite (exch_o a b h) by auto. destruct (Z.eq_dec h p) as [->|Npp]; [rewrite Np, exch_l; auto|].
  destruct (Z.eq_dec h q) as [->|Nqq]; [rewrite Nq, exch_r; auto|]. rewrite Eo by auto. rewrite exch_o; auto; intros K; [apply Npp|apply Nqq]; apply INJ; auto; congruence.
Qed.
Lemma sw_ve h : ve m' (exch a b h) = ve m h.
Proof.
  destruct (Z.eq_dec h a) as [->|Na]; [rewrite exch_l; apply E|]. destruct (Z.eq_dec h b) as [->|Nb]; [rewrite exch_r; apply E|].
  rewrite exch_o by auto. apply E; auto.
Qed.
Lemma sw_fa h : fa m' (exch a b h) = fa m h.
Proof.
  destruct (Z.eq_dec h a) as [->|Na]; [rewrite exch_l; apply E|]. destruct (Z.eq_dec h b) as [->|Nb]; [rewrite exch_r; apply E|].
  rewrite exch_o by auto. apply E; auto.
Qed.
Lemma sw_tw h : tw (exch a b h) = exch a b (tw h).
Proof.
  destruct (Z.eq_dec h a) as [->|Na]; [fold b; rewrite exch_l, exch_r; unfold b; apply tw_tw|].
  destruct (Z.eq_dec h b) as [->|Nb]; [rewrite exch_r; unfold b; rewrite tw_tw, exch_l; auto|].
  rewrite !exch_o; auto; intros K; [apply Nb|apply Na]; apply tw_inj; unfold b; rewrite ?tw_tw; auto.
Qed.
Lemma sw_liveH h : liveH m h -> liveH m (exch a b h).
Proof.
  intros Hh. unfold exch. destruct (Z.eqb_spec h a); [apply (va_cn _ V); auto|]. destruct (Z.eqb_spec h b); auto.
Qed.
Lemma sw_live' h : liveH m' h <-> liveH m h.
Proof.
  pose proof (se_scal _ _ _ _ _ _ E) as Sc. unfold scal in Sc. injection Sc as S1 S2 S3 S4 S5 S6 S7 S8 S9 S10 S11 S12 S13 S14 S15.
  unfold liveH. rewrite S7. destruct E as [_ _ Ea Eb Ep Eq Eo _ _ _ _ _ _ _ _ _ _ _ _].
  assert (Lb : liveH m b) by (apply (va_cn _ V); auto).
  assert (R : forall x, liveH m x -> x <> -1) by (intros x [K _]; lia).
  assert (Rn : forall x, liveH m x -> nx m x <> -1) by (intros x [_ K]; auto).
  destruct (Z.eq_dec h a) as [->|Na]; [rewrite Ea; pose proof (Rn _ La); pose proof (Rn _ Lb); tauto|].
  destruct (Z.eq_dec h b) as [->|Nb]; [rewrite Eb; pose proof (Rn _ La); pose proof (Rn _ Lb); tauto|].
  destruct (Z.eq_dec h p) as [->|K1]; [rewrite Ep; pose proof (R _ Lb); pose proof (Rn _ Lp); tauto|].
  destruct (Z.eq_dec h q) as [->|K2]; [rewrite Eq; pose proof (R _ La); pose proof (Rn _ Lq); tauto|]. rewrite Eo by auto. tauto.
Qed.
Lemma sw_liveF f : liveF m' f <-> liveF m f.
Proof.
  pose proof (se_scal _ _ _ _ _ _ E) as Sc. unfold scal in Sc. injection Sc as S1 S2 S3 S4 S5 S6 S7 S8 S9 S10 S11 S12 S13 S14 S15.
  assert (Lb : liveH m b) by (apply (va_cn _ V); auto).
  unfold liveF. rewrite S10.
  assert (R : forall x, liveH m x -> x <> -1) by (intros x [K _]; lia).
  assert (RF : forall x, liveH m x -> fh m (fa m x) <> -1) by (intros x K; apply (cn_fa _ (va_cn _ V)) in K; destruct K as [[_ K]|[_ K]]; auto).
  pose proof (R _ La). pose proof (R _ Lb). pose proof (RF _ La). pose proof (RF _ Lb).
  destruct (Z.eq_dec f (fa m a)) as [->|K1]; [rewrite (se_fha _ _ _ _ _ _ E); tauto|].
  destruct (Z.eq_dec f (fa m b)) as [->|K2]; [rewrite (se_fhb _ _ _ _ _ _ E) by auto; tauto|]. rewrite (se_fh _ _ _ _ _ _ E) by auto. tauto.
Qed.
Lemma sw_liveL f : liveL m' f <-> liveL m f.
Proof.
  pose proof (se_scal _ _ _ _ _ _ E) as Sc. unfold scal in Sc. injection Sc as S1 S2 S3 S4 S5 S6 S7 S8 S9 S10 S11 S12 S13 S14 S15.
  assert (Lb : liveH m b) by (apply (va_cn _ V); auto).
  unfold liveL. rewrite S11, S15.
  assert (R : forall x, liveH m x -> x <> -1) by (intros x [K _]; lia).
  assert (RF : forall x, liveH m x -> fh m (fa m x) <> -1) by (intros x K; apply (cn_fa _ (va_cn _ V)) in K; destruct K as [[_ K]|[_ K]]; auto).
  pose proof (R _ La). pose proof (R _ Lb). pose proof (RF _ La). pose proof (RF _ Lb).
  destruct (Z.eq_dec f (fa m a)) as [->|K1]; [rewrite (se_fha _ _ _ _ _ _ E); tauto|].
  destruct (Z.eq_dec f (fa m b)) as [->|K2]; [rewrite (se_fhb _ _ _ _ _ _ E) by auto; tauto|]. rewrite (se_fh _ _ _ _ _ _ E) by auto. tauto.
Qed.
(** representatives of vertices *)
Lemma sw_vh v : liveV m v -> exists h, liveH m h /\ vh m' v = exch a b h /\ ve m h = v /\ (h = vh m v \/ forall k, liveH m k -> ve m k = v -> ~ ext m (tw k)).
Proof.
  intros Hv. pose proof (va_cn _ V) as CN. destruct (cn_vh _ CN v Hv) as (Lv & Ev). assert (Lb : liveH m b) by (apply CN; auto).
  assert (Tb : tw b = a) by apply tw_tw.
  destruct (Z.eq_dec (ve m a) (ve m b)) as [El|El]; [|exists (vh m v); rewrite (se_vh _ _ _ _ _ _ E) by auto; auto].
  destruct (Z.eq_dec v (ve m a)) as [->|Kv].
  2:{ exists (vh m v). rewrite (se_vo _ _ _ _ _ _ E) by congruence. split; [auto|]. split; [|auto]. rewrite exch_o; auto; congruence. }
  rewrite (se_vl _ _ _ _ _ _ E) by auto.
  destruct (isLoop m (fa m b)) eqn:IL.
  { cbn [orb]. exists a. rewrite exch_l. split; [auto|]. split; [auto|]. split; [auto|]. left. symmetry. apply (cn_vbd _ CN); auto. fold b. unfold ext. unfold isLoop in IL.
    assert (0 <= fa m b) by (apply (liveFL_nonneg m V), CN; auto). lia. }
  assert (Ib : ~ ext m b) by (unfold ext; unfold isLoop in IL; lia).
  cbn [orb]. destruct (Z.eqb_spec (vh m (ve m a)) a) as [Ka|Ka]; cbn [orb].
  { exists a. rewrite exch_l. auto. }
  destruct (Z.eqb_spec (vh m (ve m a)) b) as [Kb|Kb].
  { exists a. rewrite exch_l. split; [auto|]. split; [auto|]. split; [auto|]. right. intros k Lk Ek Xk.
    pose proof (cn_vbd _ CN k Lk Xk) as K. rewrite Ek, Kb in K. subst k. rewrite Tb in Xk. auto. }
  exists (vh m (ve m a)). rewrite exch_o by auto. auto.
Qed.
Lemma sw_liveV v : liveV m' v <-> liveV m v.
Proof.
  pose proof (se_scal _ _ _ _ _ _ E) as Sc. unfold scal in Sc. injection Sc as S1 S2 S3 S4 S5 S6 S7 S8 S9 S10 S11 S12 S13 S14 S15.
  pose proof (va_cn _ V) as CN. assert (Lb : liveH m b) by (apply CN; auto).
  split.
  - intros [K1 K2]. rewrite S9 in K1. split; auto. intros K3.
    destruct (Z.eq_dec v (ve m a)) as [->|Ka]; [exact (proj2 (cn_ve _ CN _ La) K3)|].
    destruct (Z.eq_dec v (ve m b)) as [->|Kb]; [exact (proj2 (cn_ve _ CN _ Lb) K3)|].
    rewrite (se_vo _ _ _ _ _ _ E) in K2 by auto. auto.
  - intros Hv. destruct (sw_vh v Hv) as (h & K1 & K2 & _). split; [rewrite S9; apply Hv|]. rewrite K2. pose proof (sw_liveH h K1) as [K _]. lia.
Qed.
Lemma sw_iso : Iso m m' (exch a b) (exch a b) (fun v => v) (fun v => v) (fun f => f) (fun f => f).
Proof.
  split; intros x Hx.
  - rewrite sw_live', exch_exch. split; auto. apply sw_liveH; auto.
  - rewrite exch_exch. split; auto. apply sw_liveH, sw_live'; auto.
  - rewrite sw_liveV. auto.
  - rewrite <- sw_liveV. auto.
  - rewrite sw_liveF. auto.
  - rewrite <- sw_liveF. auto.
  - rewrite sw_liveL. auto.
  - rewrite <- sw_liveL. auto.
  - apply sw_tw.
  - apply sw_nx; auto.
  - apply sw_ve.
  - apply sw_fa.
Qed.
Lemma sw_valid : ~ ext m b -> a mod 2 = 0 -> Valid m'.
Proof.
  intros Ib Ev. pose proof (se_scal _ _ _ _ _ _ E) as Sc. unfold scal in Sc. injection Sc as S1 S2 S3 S4 S5 S6 S7 S8 S9 S10 S11 S12 S13 S14 S15.
  pose proof (se_lens _ _ _ _ _ _ E) as Le. unfold lens in Le. injection Le as Z1 Z2 Z3 Z4 Z5.
  pose proof (va_cn _ V) as CN. assert (Lb : liveH m b) by (apply CN; auto).
  assert (ST' : Stored m'). { destruct (va_st _ V). split; lia. }
  assert (HL : forall h, 0 <= h < heFill m -> liveHb m' h = liveHb m h).
  { intros h Hh. pose proof (sw_live' h) as K. unfold liveH in K. rewrite S7 in K. unfold liveHb. destruct (Z.eqb_spec (nx m' h) (-1)), (Z.eqb_spec (nx m h) (-1)); simpl; auto; exfalso; intuition. }
  assert (EX : forall h, fFill m <= fa m' h <-> fFill m <= fa m h).
  { intros h. unfold ext in Ia, Ib. destruct (Z.eq_dec h a) as [->|Na]; [rewrite (se_fa _ _ _ _ _ _ E); tauto|].
    destruct (Z.eq_dec h b) as [->|Nb]; [rewrite (se_fb _ _ _ _ _ _ E); tauto|]. rewrite (se_fo _ _ _ _ _ _ E) by auto. tauto. }
  split; [exact ST'| | |].
  - destruct (va_ct _ V) as [C1 C2 C3 C4 C5 C6]. split; rewrite ?S1, ?S2, ?S3, ?S4, ?S5, ?S6, ?S7, ?S8, ?S9, ?S10, ?S11, ?S15.
    + rewrite C1. apply countb_ext. intros h Hh. symmetry; auto.
    + rewrite C2. apply countb_ext. intros h Hh. unfold intHb. rewrite HL, S10 by auto. f_equal. pose proof (EX h). lia.
    + rewrite C3. apply countb_ext. intros e He. symmetry. apply HL. destruct (va_st _ V). lia.
    + rewrite C4. apply countb_ext. intros v Hv. pose proof (sw_liveV v) as K. unfold liveV in K. rewrite S9 in K. unfold liveVb. destruct (Z.eqb_spec (vh m' v) (-1)), (Z.eqb_spec (vh m v) (-1)); simpl; auto; exfalso; intuition.
    + rewrite C5. apply countb_ext. intros f Hf. pose proof (sw_liveF f) as K. unfold liveF in K. rewrite S10 in K. unfold liveFb. destruct (Z.eqb_spec (fh m' f) (-1)), (Z.eqb_spec (fh m f) (-1)); simpl; auto; exfalso; intuition.
    + rewrite C6. apply countb_ext. intros i Hi. pose proof (sw_liveL (fCap m - 1 - i)) as K. unfold liveL in K. rewrite S11, S15 in K.
      assert (R : fCap m - bFill m <= fCap m - 1 - i < fCap m) by lia.
      unfold liveFb. destruct (Z.eqb_spec (fh m' (fCap m - 1 - i)) (-1)), (Z.eqb_spec (fh m (fCap m - 1 - i)) (-1)); simpl; auto; exfalso; intuition.
  - apply (iso_connected m m' _ _ _ _ _ _ (va_st _ V) ST' CN sw_iso).
    + intros v Hv. apply sw_vh; auto.
    + intros f Hf. rewrite exch_exch. split; [|split; auto].
      * destruct (Z.eq_dec f (fa m a)) as [->|Ka]; [rewrite (se_fha _ _ _ _ _ _ E), exch_r; auto|].
        destruct (Z.eq_dec f (fa m b)) as [->|Kb]; [rewrite (se_fhb _ _ _ _ _ _ E), exch_l by auto; auto|].
        rewrite (se_fh _ _ _ _ _ _ E) by auto. apply sw_liveH. apply (cn_fh _ CN); auto.
      * destruct (Z.eq_dec f (fa m a)) as [->|Ka]; [rewrite (se_fha _ _ _ _ _ _ E), exch_r; auto|].
        destruct (Z.eq_dec f (fa m b)) as [->|Kb]; [rewrite (se_fhb _ _ _ _ _ _ E), exch_l by auto; auto|].
        rewrite (se_fh _ _ _ _ _ _ E) by auto. destruct (cn_fh _ CN f Hf) as (K1 & K2). rewrite exch_o; auto; congruence.
    + intros h Hh Xh. assert (h <> a /\ h <> b) as [K1 K2] by (split; intros ->; auto). rewrite exch_o by auto. intros K. apply (cn_ebd _ CN h Hh K Xh).
  - pose proof (cn_ve _ CN _ La) as [K1 _]. pose proof (cn_ve _ CN _ Lb) as [K2 _]. destruct (va_sl _ V) as [G1 G2]. pose proof (cn_fa _ CN _ La) as K3. pose proof (cn_fa _ CN _ Lb) as K4.
    assert (K5 : ~ fFill m <= fa m a < fCap m - bFill m) by (destruct K3 as [[K _]|[K _]]; clear -K; lia).
    assert (K6 : ~ fFill m <= fa m b < fCap m - bFill m) by (destruct K4 as [[K _]|[K _]]; clear -K; lia).
    split; rewrite S7, ?S9, ?S10, ?S11, ?S14, ?S15.
    + intros v Hv. rewrite (se_vo _ _ _ _ _ _ E); [apply G1; exact Hv|intros ->; clear -Hv K1; lia|intros ->; clear -Hv K2; lia].
    + intros f Hf. rewrite (se_fh _ _ _ _ _ _ E); [apply G2; exact Hf|intros ->; auto..].
Qed.
End SwValid.

Lemma switch_spec m e : Valid m -> liveH m (eHe e) -> plainEdge m (eHe e) ->
  let a := eHe e in let b := tw a in let s := exch a b in
  exists m', switchHalfedgeSides m e = Ok m' /\ same_elements m m' /\ counts m' = counts m /\
    (forall h, liveH m h -> nx m' (s h) = s (nx m h) /\ ve m' (s h) = ve m h /\ fa m' (s h) = fa m h) /\
    (ve m a <> ve m b -> forall v, liveV m v -> vh m' v = s (vh m v)) /\
    (forall f, f <> fa m a -> f <> fa m b -> fh m' f = fh m f) /\
    (forall h, liveH m h -> (ext m' (s h) <-> ext m h)) /\ (~ ext m b -> Valid m').
Proof.
  intros V L PE a b s. destruct (switch_run m e V L PE) as (m' & p & q & R & Lp & Np & Lq & Nq & E). exists m'. fold a in L, PE, Np, Nq, E. fold b in Nq, E.
  assert (Ev : a mod 2 = 0) by (unfold a, eHe; lia).
  assert (Ia : ~ ext m a) by (apply (va_cn _ V); auto).
  split; [exact R|]. split.
  { split; [intros x; eapply sw_live'; try exact E; auto|]. split; [intros x; eapply sw_liveV; try exact E; auto|]. intros x. unfold liveFL. pose proof (sw_liveF m m' a p q V L E x). pose proof (sw_liveL m m' a p q V L E x). tauto. }
  pose proof (se_scal _ _ _ _ _ _ E) as Sc. unfold scal in Sc. injection Sc as S1 S2 S3 S4 S5 S6 S7 S8 S9 S10 S11 S12 S13 S14 S15.
  split; [unfold counts; congruence|].
  split. { intros h Hh. split; [eapply sw_nx; try exact E; auto|]. split; [eapply sw_ve; exact E|eapply sw_fa; exact E]. }
  split; [apply E|]. split; [apply E|]. split; [|intros Ib; eapply sw_valid; try exact E; auto].
  intros h Hh. unfold ext, s, b. rewrite S10. rewrite (sw_fa m m' a p q E h). tauto.
Qed.

Lemma switch_twice m e : Valid m -> liveH m (eHe e) -> plainEdge m (eHe e) -> ~ ext m (tw (eHe e)) ->
  exists m1 m2, switchHalfedgeSides m e = Ok m1 /\ switchHalfedgeSides m1 e = Ok m2 /\ Valid m2 /\ same_elements m m2 /\ counts m2 = counts m /\
    (forall h, liveH m h -> nx m2 h = nx m h /\ ve m2 h = ve m h /\ fa m2 h = fa m h) /\
    (ve m (eHe e) <> ve m (tw (eHe e)) -> forall v, liveV m v -> vh m2 v = vh m v).
Proof.
  intros V L PE Ib. set (a := eHe e) in *. set (b := tw a) in *.
  destruct (switch_spec m e V L PE) as (m1 & R1 & S1 & C1 & N1 & H1 & F1 & X1 & V1). fold a in N1, H1, F1, X1, V1; fold b in N1, H1, F1, X1, V1. specialize (V1 Ib).
  pose proof (va_cn _ V) as CN. assert (Lb : liveH m b) by (apply CN; auto).
  destruct (N1 a L) as (Na & Va & Fa). destruct (N1 b Lb) as (Nb & Vb & Fb). rewrite exch_l in Na, Va, Fa. rewrite exch_r in Nb, Vb, Fb.
  pose proof PE as (P1 & P2 & P3 & P4). fold b in P2, P3, P4. rewrite exch_o in Na, Nb by auto.
  assert (PE1 : plainEdge m1 a) by (unfold plainEdge; fold b; rewrite Na, Nb; auto).
  assert (L1 : liveH m1 a) by (apply S1; auto).
  destruct (switch_spec m1 e V1 L1 PE1) as (m2 & R2 & S2 & C2 & N2 & H2 & F2 & _ & V2). fold a in N2, H2, F2, V2. fold b in N2, H2, F2, V2.
  exists m1, m2. split; [exact R1|]. split; [exact R2|].
  assert (Ib1 : ~ ext m1 b). { specialize (X1 a L). rewrite exch_l in X1. rewrite X1. apply CN; auto. unfold a, eHe; lia. }
  split; [apply V2; auto|].
  split. { destruct S1 as (A1 & A2 & A3), S2 as (B1 & B2 & B3). split; [|split]; intros x; [rewrite B1, A1|rewrite B2, A2|rewrite B3, A3]; tauto. }
  split; [congruence|].
  assert (LE : forall h, liveH m h -> liveH m (exch a b h)). { intros h Hh. unfold exch. destruct (Z.eqb_spec h a); [auto|]. destruct (Z.eqb_spec h b); auto. }
  split.
  - intros h Hh. destruct (N1 h Hh) as (W1 & W2 & W3). destruct (N2 (exch a b h)) as (Y1 & Y2 & Y3); [apply S1; auto|].
    rewrite exch_exch in Y1, Y2, Y3. rewrite W1, exch_exch in Y1. rewrite Y1, Y2, Y3, W2, W3. auto.
  - intros Hn v Hv. rewrite H2; [|congruence|apply S1; auto]. rewrite H1 by auto. apply exch_exch.
Qed.
