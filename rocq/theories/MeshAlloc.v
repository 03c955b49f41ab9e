(** Allocation of elements: growth leaves every existing element as it was (boundary loops move with the end of the face
    array). *)
From Verif Require Import Base MeshModel MeshSpec MeshBase MeshExec.
Open Scope Z_scope.

Lemma foldM_snoc {A S} (f : S -> A -> res S) l a s : foldM f (l ++ [a]) s = let* s' := foldM f l s in f s' a.
Proof.
  revert s; induction l as [|x t IH]; intros s; cbn [app foldM].
  - cbn [bind]. destruct (f s a); reflexivity.
  - destruct (f s x); cbn [bind]; auto.
Qed.

Ltac pj := cbn [heNext heVertex heFace vHalfedge fHalfedge nHalfedges nInterior nEdges nVertices nFaces nLoops heFill eFill vFill fFill bFill heCap eCap vCap fCap compressed cblog].

Record Alloc (m m1 : mesh) (s : Z) : Prop := {
  al_st : Stored m1;
  al_s : 0 <= s; al_cap : fCap m1 = fCap m + s;
  al_he : heFill m <= heFill m1; al_v : vFill m <= vFill m1; al_f : fFill m <= fFill m1; al_b : bFill m1 = bFill m;
  al_nx : forall h, 0 <= h < heFill m -> nx m1 h = nx m h;
  al_ve : forall h, 0 <= h < heFill m -> ve m1 h = ve m h;
  al_fa : forall h, liveH m h -> fa m1 h = if fFill m <=? fa m h then fa m h + s else fa m h;
  al_vh : forall v, 0 <= v < vFill m -> vh m1 v = vh m v;
  al_fh : forall f, 0 <= f < fFill m -> fh m1 f = fh m f;
  al_lh : forall f, fCap m - bFill m <= f < fCap m -> fh m1 (f + s) = fh m f;
  al_vg : forall v, 0 <= v -> vFill m <= v < vCap m1 -> -1 <= vh m1 v < Z.max 1 (heFill m);
  al_fg : forall f, 0 <= f -> fFill m <= f < fCap m1 - bFill m1 -> -1 <= fh m1 f < Z.max 1 (heFill m) }.

Lemma alloc_refl m : Stored m -> Slots m -> Alloc m m 0.
Proof.
  intros ST SG. split; auto; try lia. intros h _. destruct (_ <=? _); lia. intros. rewrite Z.add_0_r. auto. intros; apply SG; auto. intros; apply SG; auto.
Qed.
Lemma getZ_resizeZ_or l n i : zlen l <= n -> 0 <= i < n -> (i < zlen l /\ getZ (resizeZ l n) i = getZ l i) \/ (zlen l <= i /\ getZ (resizeZ l n) i = 0).
Proof.
  intros Hl Hi. destruct (Z_lt_le_dec i (zlen l)) as [K|K]; [left; split; auto; apply getZ_resizeZ; lia|right]. split; auto.
  apply getZ_resizeZ_new. lia.
Qed.

(** the grown mesh with the old fill counts and element counts *)
Definition reset (m1 m : mesh) : mesh :=
  mkMesh (heNext m1) (heVertex m1) (heFace m1) (vHalfedge m1) (fHalfedge m1)
    (nHalfedges m) (nInterior m) (nEdges m) (nVertices m) (nFaces m) (nLoops m)
    (heFill m) (eFill m) (vFill m) (fFill m) (bFill m) (heCap m1) (eCap m1) (vCap m1) (fCap m1) (compressed m1) (cblog m1).

Lemma reach_ext (L : Z -> Prop) f g a b : (forall x, L x -> L (f x)) -> (forall x, L x -> g x = f x) -> L a -> reach f a b -> reach g a b.
Proof.
  intros Lf E La (n & <-). exists n. assert (Nat.iter n g a = Nat.iter n f a /\ L (Nat.iter n f a)) as [K _]; auto.
  induction n as [|n [IH1 IH2]]; simpl; auto. rewrite IH1. split; auto.
Qed.

Section Reset.
Context (m m1 : mesh) (s : Z) (V : Valid m) (A : Alloc m m1 s).
Let g := reset m1 m.
Lemma reset_nx h : 0 <= h < heFill m -> nx g h = nx m h.
Proof. apply A. Qed.
Lemma reset_ve h : 0 <= h < heFill m -> ve g h = ve m h.
Proof. apply A. Qed.
Lemma reset_vh v : 0 <= v < vFill m -> vh g v = vh m v.
Proof. apply A. Qed.
Lemma reset_fa h : liveH m h -> fa g h = if fFill m <=? fa m h then fa m h + s else fa m h.
Proof. apply A. Qed.
Lemma reset_liveH h : liveH g h <-> liveH m h.
Proof.
  unfold liveH. change (heFill g) with (heFill m). split; intros [H K]; split; auto;
  [rewrite reset_nx in K by auto|rewrite reset_nx by auto]; auto.
Qed.
Lemma reset_liveV v : liveV g v <-> liveV m v.
Proof.
  unfold liveV. change (vFill g) with (vFill m). split; intros [H K]; split; auto;
  [rewrite reset_vh in K by auto|rewrite reset_vh by auto]; auto.
Qed.
Lemma reset_liveF f : liveF g f <-> liveF m f.
Proof.
  unfold liveF. change (fFill g) with (fFill m). change (fh g f) with (fh m1 f). split; intros [H K]; split; auto;
  [rewrite (al_fh _ _ _ A) in K by auto|rewrite (al_fh _ _ _ A) by auto]; auto.
Qed.
Lemma reset_liveL f : liveL g (f + s) <-> liveL m f.
Proof.
  unfold liveL. change (fCap g) with (fCap m1). change (bFill g) with (bFill m). change (fh g (f + s)) with (fh m1 (f + s)).
  rewrite (al_cap _ _ _ A). split; intros [H K]; (split; [lia|]);
  [rewrite (al_lh _ _ _ A) in K by lia|rewrite (al_lh _ _ _ A) by lia]; auto.
Qed.
Lemma reset_ext h : liveH m h -> (ext g h <-> ext m h).
Proof.
  intros H. unfold ext. rewrite reset_fa by auto. change (fFill g) with (fFill m). pose proof (al_s _ _ _ A).
  destruct (Z.leb_spec (fFill m) (fa m h)); lia.
Qed.
Lemma reset_fa_eq a b : liveH m a -> liveH m b -> (fa g a = fa g b <-> fa m a = fa m b).
Proof.
  intros Ha Hb. rewrite !reset_fa by auto. pose proof (al_s _ _ _ A).
  pose proof (cn_fa _ (va_cn _ V) a Ha). pose proof (cn_fa _ (va_cn _ V) b Hb).
  destruct (Z.leb_spec (fFill m) (fa m a)), (Z.leb_spec (fFill m) (fa m b)); split; try lia.
Qed.

Lemma reset_valid : Valid g.
Proof.
  destruct V as [ST CT CN SG]. pose proof (al_st _ _ _ A) as ST1. pose proof (al_s _ _ _ A) as Hs. pose proof (al_cap _ _ _ A) as Hcap.
  assert (RL : forall h, liveH g h -> 0 <= h < heFill m) by (intros h [K _]; exact K).
  split.
  - destruct ST, ST1. destruct A. split; unfold g, reset; pj; try lia.
  - destruct CT as [C1 C2 C3 C4 C5 C6]. split; unfold g, reset; pj; fold (reset m1 m); fold g.
    + rewrite C1. apply countb_ext. intros h Hh. unfold liveHb. rewrite reset_nx; auto.
    + rewrite C2. apply countb_ext. intros h Hh. unfold intHb. unfold liveHb. rewrite reset_nx by auto.
      destruct (Z.eqb_spec (nx m h) (-1)) as [E|E]; simpl; auto. f_equal.
      assert (Lh : liveH m h) by (split; auto). pose proof (reset_ext h Lh) as K. unfold ext in K. change (fFill g) with (fFill m) in K. change (fFill m <=? fa g h) with (fFill m <=? fa g h). change (fFill g) with (fFill m). lia.
    + rewrite C3. apply countb_ext. intros e He. unfold liveHb. rewrite reset_nx; auto. destruct ST. lia.
    + rewrite C4. apply countb_ext. intros h Hh. unfold liveVb. rewrite reset_vh; auto.
    + rewrite C5. apply countb_ext. intros f Hf. unfold liveFb. change (fh g f) with (fh m1 f). rewrite (al_fh _ _ _ A); auto.
    + rewrite C6. apply countb_ext. intros i Hi. unfold liveFb. change (fh g (fCap m1 - 1 - i)) with (fh m1 (fCap m1 - 1 - i)).
      rewrite Hcap. replace (fCap m + s - 1 - i) with (fCap m - 1 - i + s) by lia. rewrite (al_lh _ _ _ A); auto. lia.
  - assert (N : forall h, liveH m h -> nx g h = nx m h) by (intros h [K _]; apply reset_nx; auto).
    assert (E : forall h, liveH m h -> ve g h = ve m h) by (intros h [K _]; apply reset_ve; auto).
    assert (H : forall v, liveV m v -> vh g v = vh m v) by (intros h [K _]; apply reset_vh; auto).
    split.
    + intros h Hh. apply reset_liveH. apply CN. apply reset_liveH; auto.
    + intros h Hh. apply reset_liveH in Hh. apply reset_liveH. rewrite N by auto. apply CN; auto.
    + intros a b Ha Hb. apply reset_liveH in Ha. apply reset_liveH in Hb. rewrite !N by auto. apply CN; auto.
    + intros h Hh. apply reset_liveH in Hh. rewrite E by auto. apply reset_liveV, CN; auto.
    + intros h Hh. apply reset_liveH in Hh. rewrite reset_fa by auto. destruct (cn_fa _ CN h Hh) as [K|K].
      * left. apply reset_liveF. destruct (Z.leb_spec (fFill m) (fa m h)); auto. destruct K; lia.
      * right. destruct (Z.leb_spec (fFill m) (fa m h)); [apply reset_liveL; auto|]. destruct K, ST; lia.
    + intros h Hh. apply reset_liveH in Hh. assert (liveH m (tw h)) by (apply CN; auto). rewrite N by auto. rewrite !E; auto; [apply (cn_vnx _ CN); auto|apply CN; auto].
    + intros h Hh. apply reset_liveH in Hh. rewrite N by auto. apply reset_fa_eq; auto; [apply CN; auto|apply (cn_fnx _ CN); auto].
    + intros v Hv. apply reset_liveV in Hv. rewrite H by auto. rewrite reset_liveH. destruct (cn_vh _ CN v Hv). rewrite E; auto.
    + intros f Hf. assert (X : exists f0, liveFL m f0 /\ f = (if fFill m <=? f0 then f0 + s else f0) /\ fh g f = fh m f0).
      { destruct Hf as [K|K].
        - exists f. apply reset_liveF in K. split; [left; auto|]. destruct K as [K1 K2]. split; [destruct (Z.leb_spec (fFill m) f); lia|]. apply (al_fh _ _ _ A); auto.
        - exists (f - s). replace f with (f - s + s) in K by lia. apply reset_liveL in K. split; [right; auto|]. destruct K as [K1 K2].
          split; [destruct ST; destruct (Z.leb_spec (fFill m) (f - s)); lia|]. change (fh g f) with (fh m1 f). replace f with (f - s + s) at 1 by lia. apply (al_lh _ _ _ A); auto. }
      destruct X as (f0 & Hf0 & Ef & Eh). destruct (cn_fh _ CN f0 Hf0) as (K1 & K2). rewrite Eh, reset_liveH, reset_fa by auto. rewrite K2. auto.
    + intros a b Ha Hb Eab. apply reset_liveH in Ha. apply reset_liveH in Hb. apply (reset_fa_eq a b) in Eab; auto.
      apply (reach_ext (liveH m)) with (f := nx m); auto; apply CN; auto.
    + intros a b Ha Hb. apply reset_liveH in Ha. apply reset_liveH in Hb. rewrite !E by auto. intros Eab.
      apply (reach_ext (liveH m)) with (f := ro m); auto; try (apply CN; auto).
      * intros x Hx. apply CN, CN; auto.
      * intros x Hx. apply N, CN; auto.
    + intros h Hh Hm. apply reset_liveH in Hh. rewrite reset_ext by auto. apply CN; auto.
    + intros h Hh Hx. apply reset_liveH in Hh. apply reset_ext in Hx; [|apply CN; auto]. rewrite E by auto. rewrite H by (apply CN; auto). apply (cn_vbd _ CN); auto.
  - destruct ST. split; [intros v Hv; apply (al_vg _ _ _ A); auto; clear -Hv st_v; unfold g, reset in Hv; cbn in Hv; lia|].
    intros f Hf. apply (al_fg _ _ _ A); [clear -Hf st_f; unfold g, reset in Hf; cbn in Hf; lia|]. rewrite (al_b _ _ _ A). exact Hf.
Qed.
End Reset.

(** ** getNewVertex *)
Lemma getNewVertex_alloc m m1 s : Alloc m m1 s -> 0 < vCap m1 ->
  exists m2, getNewVertex m1 = (m2, vFill m1) /\ Alloc m m2 s /\
    (heNext m2, heVertex m2, heFace m2, fHalfedge m2) = (heNext m1, heVertex m1, heFace m1, fHalfedge m1) /\
    (forall v, 0 <= v < vFill m1 -> vh m2 v = vh m1 v) /\
    (nHalfedges m2, nInterior m2, nEdges m2, nVertices m2, nFaces m2, nLoops m2) = (nHalfedges m1, nInterior m1, nEdges m1, nVertices m1 + 1, nFaces m1, nLoops m1) /\
    (heFill m2, eFill m2, vFill m2, fFill m2, bFill m2, heCap m2, eCap m2, fCap m2) =
    (heFill m1, eFill m1, vFill m1 + 1, fFill m1, bFill m1, heCap m1, eCap m1, fCap m1).
Proof.
  intros A Hc. destruct (al_st _ _ _ A) as [T1 T2 T3 T4 T5 T6 T7 T8 T9]. destruct A as [_ A1 A2 A3 A4 A5 A6 A7 A8 A9 A10 A11 A12 A13 A14].
  unfold getNewVertex, growVertices.
  assert (GR : forall v, 0 <= v < vFill m1 -> getZ (resizeZ (vHalfedge m1) (vCap m1 * 2)) v = getZ (vHalfedge m1) v).
  { intros v Hv. apply getZ_resizeZ; li. }
  destruct (Z.ltb_spec (vFill m1) (vCap m1)); eexists; (split; [reflexivity|]).
  - split; [|split; [reflexivity|split; [|split; reflexivity]]].
    + split; pj; auto; try li. split; pj; auto; li.
    + auto.
  - split; [|split; [reflexivity|split; [|split; reflexivity]]].
    + split; pj; auto; try li.
      * split; pj; auto; try li. rewrite zlen_resizeZ; li.
      * intros v Hv. unfold vh. pj. rewrite GR by li. apply A10; auto.
      * intros v Hv0 Hv. unfold vh. pj. destruct (getZ_resizeZ_or (vHalfedge m1) (vCap m1 * 2) v) as [[K ->]|[K ->]]; [li|li|apply A13; li|li].
    + intros v Hv. unfold vh. pj. apply GR; auto.
Qed.

(** ** getNewEdgeTriple *)
Lemma getNewEdgeTriple_alloc m m1 s b : Alloc m m1 s ->
  exists m2, getNewEdgeTriple m1 b = Ok (m2, heFill m1) /\ Alloc m m2 s /\
    (vHalfedge m2, fHalfedge m2) = (vHalfedge m1, fHalfedge m1) /\
    (forall h, 0 <= h < heFill m1 -> nx m2 h = nx m1 h /\ ve m2 h = ve m1 h /\ fa m2 h = fa m1 h) /\
    (nHalfedges m2, nInterior m2, nEdges m2, nVertices m2, nFaces m2, nLoops m2) =
    (nHalfedges m1 + 2, nInterior m1 + (if b then 1 else 2), nEdges m1 + 1, nVertices m1, nFaces m1, nLoops m1) /\
    (heFill m2, eFill m2, vFill m2, fFill m2, bFill m2, vCap m2, fCap m2) =
    (heFill m1 + 2, eFill m1 + 1, vFill m1, fFill m1, bFill m1, vCap m1, fCap m1).
Proof.
  intros A. destruct (al_st _ _ _ A) as [T1 T2 T3 T4 T5 T6 T7 T8 T9]. destruct A as [_ A1 A2 A3 A4 A5 A6 A7 A8 A9 A10 A11 A12 A13 A14].
  unfold getNewEdgeTriple, growEdges.
  destruct (Z.ltb_spec (heFill m1 + 1) (heCap m1)).
  - unfold guard. destruct (Z.ltb_spec (eFill m1) (eCap m1)); [|li]. cbn [bind]. eexists. split; [reflexivity|].
    split; [|split; [reflexivity|split; [auto|split; reflexivity]]].
    split; pj; auto; try li. split; pj; auto; li.
  - cbn [bind].
    assert (GR : forall l h, heCap m1 <= zlen l -> 0 <= h < heFill m1 -> getZ (resizeZ l (Z.max (heCap m1 * 2) 2)) h = getZ l h).
    { intros l h Hl Hh. apply getZ_resizeZ; li. }
    eexists. split; [reflexivity|].
    split; [|split; [reflexivity|split; [|split; reflexivity]]].
    + split; pj; auto; try li.
      * split; pj; auto; try li; rewrite ?zlen_resizeZ; li.
      * intros h Hh. unfold nx. pj. rewrite GR by li. apply A7; auto.
      * intros h Hh. unfold ve. pj. rewrite GR by li. apply A8; auto.
      * intros h Hh. unfold fa at 1. pj. rewrite GR by (destruct Hh; li). apply A9; auto.
    + intros h Hh. unfold nx, ve, fa. pj. rewrite !GR by auto. auto.
Qed.

(** ** expandFaceStorage *)
Lemma scoochLoops_ok cap nb l : 0 <= nb <= cap -> zlen l = 2 * cap ->
  exists l', scoochLoops cap (2 * cap) nb l = Ok l' /\ zlen l' = 2 * cap /\
    (forall i, 0 <= i < cap - nb -> getZ l' i = getZ l i) /\
    (forall i, cap - nb <= i < cap -> getZ l' (i + cap) = getZ l i) /\
    (forall i, cap - nb <= i < 2 * cap - nb -> getZ l' i = if i <? cap then -1 else getZ l i).
Proof.
  intros Hn Hl. unfold scoochLoops. assert (H : 0 <= nb) by lia. revert Hn. pattern nb. apply Z_ind_nonneg; [| |exact H].
  - intros _. exists l. pj. repeat split; auto; try lia. intros i Hi. destruct (Z.ltb_spec i cap); auto; lia.
  - clear nb H. intros n Hn IH Hb. destruct IH as (l1 & E & Z1 & G1 & G2 & G3); [lia|].
    rewrite zseq_S by auto. rewrite foldM_snoc, E. cbn [bind].
    rewrite rdZ_ok by lia. cbn [bind]. rewrite wrZ_ok by lia. cbn [bind]. rewrite wrZ_ok by (rewrite zlen_updZ; lia).
    eexists. split; [reflexivity|]. rewrite !zlen_updZ. split; auto. split; [|split].
    + intros i Hi. rewrite !getZ_updZ by (rewrite ?zlen_updZ; lia).
      destruct (Z.eqb_spec i (cap - n - 1)), (Z.eqb_spec i (2 * cap - n - 1)); try lia; try (apply G1; lia).
    + intros i Hi. rewrite !getZ_updZ by (rewrite ?zlen_updZ; lia).
      destruct (Z.eqb_spec (i + cap) (cap - n - 1)); [lia|]. destruct (Z.eqb_spec (i + cap) (2 * cap - n - 1)).
      * replace (cap - n - 1) with i by lia. apply G1. lia.
      * apply G2. lia.
    + intros i Hi. rewrite !getZ_updZ by (rewrite ?zlen_updZ; lia).
      destruct (Z.eqb_spec i (cap - n - 1)); [destruct (Z.ltb_spec i cap); auto; lia|].
      destruct (Z.eqb_spec i (2 * cap - n - 1)); [lia|]. apply G3. lia.
Qed.
Lemma scoochFaces_ok m sh : heFill m <= zlen (heNext m) -> heFill m <= zlen (heFace m) -> 0 <= heFill m ->
  exists l, scoochFaces m sh = Ok l /\ zlen l = zlen (heFace m) /\
    forall h, 0 <= h < heFill m -> getZ l h = if (nx m h =? -1) then fa m h else if isLoop m (fa m h) then fa m h + sh else fa m h.
Proof.
  intros H1 H2 H3. unfold scoochFaces.
  assert (X : forall n, 0 <= n -> n <= heFill m ->
   exists l, foldM (fun l iHe => let* dead := heIsDead m iHe in if (dead : bool) then Ok l else let* f := rdZ l iHe in
                if isLoop m f then wrZ l iHe (f + sh) else Ok l) (zseq n) (heFace m) = Ok l /\ zlen l = zlen (heFace m) /\
    (forall h, 0 <= h < n -> getZ l h = if (nx m h =? -1) then fa m h else if isLoop m (fa m h) then fa m h + sh else fa m h) /\
    (forall h, n <= h -> getZ l h = fa m h)).
  { intros n Hn. pattern n. apply Z_ind_nonneg; [| |exact Hn].
    - intros _. exists (heFace m). pj. repeat split; auto. lia.
    - clear n Hn. intros n Hn IH Hb. destruct IH as (l & E & Zl & G1 & G2); [lia|].
      rewrite zseq_S by auto. rewrite foldM_snoc, E. cbn [bind]. unfold heIsDead. rewrite next_ok by lia. cbn [bind].
      change INVALID with (-1). destruct (Z.eqb_spec (nx m n) (-1)) as [D|D].
      + exists l. split; auto. split; auto. split.
        * intros h Hh. destruct (Z.eq_dec h n) as [->|]; [|apply G1; lia]. rewrite D. simpl. apply G2. lia.
        * intros. apply G2. lia.
      + rewrite rdZ_ok by lia. cbn [bind]. rewrite G2 by lia. destruct (isLoop m (fa m n)) eqn:EL.
        * rewrite wrZ_ok by lia. eexists. split; [reflexivity|]. rewrite zlen_updZ. split; auto. split.
          -- intros h Hh. rewrite getZ_updZ by lia. destruct (Z.eqb_spec h n) as [->|].
             ++ destruct (Z.eqb_spec (nx m n) (-1)); [congruence|]. rewrite EL. reflexivity.
             ++ apply G1. lia.
          -- intros h Hh. rewrite getZ_updZ by lia. destruct (Z.eqb_spec h n); [lia|]. apply G2. lia.
        * exists l. split; auto. split; auto. split.
          -- intros h Hh. destruct (Z.eq_dec h n) as [->|]; [|apply G1; lia]. rewrite G2 by lia.
             destruct (Z.eqb_spec (nx m n) (-1)); [congruence|]. rewrite EL. reflexivity.
          -- intros. apply G2. lia. }
  destruct (X (heFill m) H3 ltac:(lia)) as (l & E & Zl & G & _). exists l. auto.
Qed.

(** ** getNewFace; room is judged by the number of live loops, so dead loops must not take up room *)
Lemma getNewFace_alloc m m1 s : Valid m -> Alloc m m1 s -> 0 < fCap m1 -> nLoops m1 = bFill m1 ->
  exists m2 s2, getNewFace m1 = Ok (m2, fFill m1) /\ Alloc m m2 s2 /\ s <= s2 /\
    (vHalfedge m2, heNext m2, heVertex m2) = (vHalfedge m1, heNext m1, heVertex m1) /\
    (forall f, 0 <= f < fFill m1 -> fh m2 f = fh m1 f) /\
    (forall h, 0 <= h < heFill m1 -> 0 <= fa m1 h < fFill m1 -> fa m2 h = fa m1 h) /\
    (nHalfedges m2, nInterior m2, nEdges m2, nVertices m2, nFaces m2, nLoops m2) =
    (nHalfedges m1, nInterior m1, nEdges m1, nVertices m1, nFaces m1 + 1, nLoops m1) /\
    (heFill m2, eFill m2, vFill m2, fFill m2, bFill m2, heCap m2, eCap m2, vCap m2) =
    (heFill m1, eFill m1, vFill m1, fFill m1 + 1, bFill m1, heCap m1, eCap m1, vCap m1).
Proof.
  intros V A Hc NL. destruct (al_st _ _ _ A) as [T1 T2 T3 T4 T5 T6 T7 T8 T9]. pose proof A as A0.
  destruct A as [_ A1 A2 A3 A4 A5 A6 A7 A8 A9 A10 A11 A12 A13 A14].
  unfold getNewFace. rewrite NL. destruct (Z.ltb_spec (fFill m1 + bFill m1) (fCap m1)) as [Hr|Hr].
  - cbn [bind]. exists (mkMesh (heNext m1) (heVertex m1) (heFace m1) (vHalfedge m1) (fHalfedge m1) (nHalfedges m1) (nInterior m1) (nEdges m1) (nVertices m1)
      (nFaces m1 + 1) (nLoops m1) (heFill m1) (eFill m1) (vFill m1) (fFill m1 + 1) (bFill m1) (heCap m1) (eCap m1) (vCap m1) (fCap m1) false (cblog m1)), s.
    rewrite NL. split; [reflexivity|]. split; [|split; [li|]]; [|split; [reflexivity|split; [auto|split; [auto|split; [rewrite <- NL; reflexivity|reflexivity]]]]].
    split; pj; auto; try li. split; pj; auto; li.
  - unfold expandFaceStorage. replace (fCap m1 * 2) with (2 * fCap m1) by li.
    destruct (scoochLoops_ok (fCap m1) (bFill m1) (resizeZ (fHalfedge m1) (2 * fCap m1))) as (l1 & E1 & Z1 & G1 & G2 & G4); [li|apply zlen_resizeZ; li|].
    destruct (scoochFaces_ok m1 (2 * fCap m1 - fCap m1)) as (l2 & E2 & Z2 & G3); [li..|].
    rewrite E1. cbn [bind]. rewrite E2. cbn [bind].
    eexists. exists (s + fCap m1). split; [reflexivity|]. pj.
    assert (GF : forall h, liveH m h -> getZ l2 h = if fFill m <=? fa m h then fa m h + (s + fCap m1) else fa m h).
    { intros h Hh. rewrite G3 by (destruct Hh; li). rewrite A7 by (destruct Hh; li). destruct (Z.eqb_spec (nx m h) (-1)); [destruct Hh; congruence|].
      rewrite A9 by auto. pose proof (cn_fa _ (va_cn _ V) h Hh) as K. pose proof (st_f _ (va_st _ V)) as KS.
      assert (K' : 0 <= fa m h < fFill m \/ fCap m - bFill m <= fa m h < fCap m) by (destruct K as [[K _]|[K _]]; auto).
      clear - K' KS A1 A2 A5 A6 T9. unfold isLoop.
      destruct (Z.leb_spec (fFill m) (fa m h)).
      - destruct (Z.leb_spec (fFill m1) (fa m h + s)); [|li]. rewrite orb_true_r. li.
      - destruct (Z.leb_spec (fFill m1) (fa m h)); [li|]. destruct (Z.ltb_spec (fa m h) 0); [li|]. reflexivity. }
    split; [|split; [|split; [reflexivity|split; [|split; [|split; [rewrite NL; reflexivity|reflexivity]]]]]]; pj.
    + split; pj; auto; try li.
      * split; pj; auto; try li.
      * intros f Hf. unfold fh at 1. pj. rewrite G1 by li. rewrite getZ_resizeZ by li. apply A11; auto.
      * intros f Hf. unfold fh at 1. pj. replace (f + (s + fCap m1)) with (f + s + fCap m1) by li. rewrite G2 by li. rewrite getZ_resizeZ by li.
        apply A12. auto.
      * intros f Hf0 Hf. unfold fh. pj. destruct (Z_lt_le_dec f (fCap m1 - bFill m1)) as [K|K].
        -- rewrite G1 by li. rewrite getZ_resizeZ by li. apply A14; li.
        -- rewrite G4 by li. destruct (Z.ltb_spec f (fCap m1)); [li|]. rewrite getZ_resizeZ_new by li. li.
    + li.
    + intros f Hf. unfold fh. pj. rewrite G1 by li. apply getZ_resizeZ; li.
    + intros h Hh Hf. unfold fa at 1. pj. rewrite G3 by auto. destruct (_ =? _); auto. unfold isLoop.
      destruct (Z.ltb_spec (fa m1 h) 0), (Z.leb_spec (fFill m1) (fa m1 h)); try li. reflexivity.
Qed.
