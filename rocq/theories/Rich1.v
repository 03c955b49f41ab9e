(** Reading back the connectivity of a manifold mesh *)
From Verif Require Import Base DataModel DataSpec DataProofs MeshModel MeshSpec MeshBase MeshExec MeshAlloc MeshIso MeshDataModel MeshHistory GenBuild1 RichModel RichSpec.
Open Scope Z_scope.

Lemma pack_ok v : -1 <= v < u32max -> unpack (pack v) = v.
Proof. intros H. unfold pack, unpack, INVALID, u32max in *. destruct (Z.eqb_spec v (-1)) as [->|N]; [reflexivity|]. rewrite Z.mod_small by lia. destruct (Z.eqb_spec v 4294967295); lia. Qed.
Lemma zlen_map (f : Z -> Z) l : zlen (map f l) = zlen l.
Proof. unfold zlen. rewrite map_length. auto. Qed.
Lemma getZ_map (f : Z -> Z) l i : 0 <= i < zlen l -> getZ (map f l) i = f (getZ l i).
Proof. unfold zlen, getZ. intros H. destruct (Z.ltb_spec i 0); [lia|]. rewrite (nth_indep _ INVALID (f INVALID)) by (rewrite map_length; lia). apply map_nth. Qed.
Lemma getZ_firstn l n i : 0 <= i < n -> n <= zlen l -> getZ (firstn (Z.to_nat n) l) i = getZ l i.
Proof. unfold zlen, getZ. intros H L. destruct (Z.ltb_spec i 0); [lia|]. assert (K : (Z.to_nat i < Z.to_nat n)%nat) by lia. revert K. generalize (Z.to_nat i) (Z.to_nat n). clear. induction l as [|x l IH]; intros a [|b] K; simpl; auto; try lia. destruct a; auto. apply IH. lia. Qed.
Lemma getZ_skipn l k i : 0 <= i -> getZ (skipn k l) i = getZ l (Z.of_nat k + i).
Proof. unfold getZ. intros H. destruct (Z.ltb_spec i 0); [lia|]. destruct (Z.ltb_spec (Z.of_nat k + i) 0); [lia|]. rewrite Z2Nat.inj_add, Nat2Z.id by lia. generalize (Z.to_nat i). clear. revert k. induction l as [|x l IH]; intros [|k] n; simpl; auto; try (destruct n; auto). Qed.
Definition thru (l : list Z) : list Z := map unpack (map pack l).
Lemma zlen_thru l : zlen (thru l) = zlen l.
Proof. unfold thru. rewrite !zlen_map. auto. Qed.
Lemma thru_get l i : 0 <= i < zlen l -> -1 <= getZ l i < u32max -> getZ (thru l) i = getZ l i.
Proof. intros H B. unfold thru. rewrite getZ_map by (rewrite zlen_map; auto). rewrite getZ_map by auto. apply pack_ok; auto. Qed.
Lemma take_ok l n : 0 <= n <= zlen l -> takeZ l n = Ok (firstn (Z.to_nat n) l) /\ zlen (firstn (Z.to_nat n) l) = n.
Proof. intros H. unfold takeZ, zlen in *. rewrite firstn_length. destruct (Z.leb_spec 0 n); [|lia]. destruct (Z.leb_spec n (Z.of_nat (length l))); [|lia]. simpl. split; auto. lia. Qed.
Lemma last_ok l n : 0 <= n <= zlen l -> lastZ l n = Ok (skipn (length l - Z.to_nat n) l) /\ zlen (skipn (length l - Z.to_nat n) l) = n.
Proof. intros H. unfold lastZ, zlen in *. rewrite skipn_length. destruct (Z.leb_spec 0 n); [|lia]. destruct (Z.leb_spec n (Z.of_nat (length l))); [|lia]. simpl. split; auto. lia. Qed.
Lemma thru_take l n i : 0 <= i < n -> n <= zlen l -> -1 <= getZ l i < u32max -> getZ (thru (firstn (Z.to_nat n) l)) i = getZ l i.
Proof. intros H L B. destruct (take_ok l n ltac:(lia)) as [_ K]. rewrite thru_get; rewrite ?K, ?getZ_firstn; auto. Qed.

(** ** the counting loops *)
Lemma drop_list l at_ xs : forall c fl, (forall i, In i xs -> 0 <= at_ i < zlen l) ->
  exists b, foldM (dropDead l at_) xs (c, fl) = Ok (c - Z.of_nat (length xs) + Z.of_nat (length (filter (fun i => negb (getZ l (at_ i) =? -1)) xs)), b).
Proof.
  induction xs as [|x xs IH]; intros c fl B; cbn [foldM length filter].
  - exists fl. do 2 f_equal. lia.
  - unfold dropDead at 1. rewrite rdZ_ok by (apply B; left; auto). cbn [bind fst]. change INVALID with (-1).
    destruct (getZ l (at_ x) =? -1); cbn [negb length]; [destruct (IH (c - 1) false) as (b & ->)|destruct (IH c fl) as (b & ->)]; try (intros; apply B; right; auto); exists b; do 2 f_equal; lia.
Qed.
Lemma drop_ok l at_ n fl : 0 <= n -> (forall i, 0 <= i < n -> 0 <= at_ i < zlen l) ->
  exists b, foldM (dropDead l at_) (zseq n) (n, fl) = Ok (countb (fun i => negb (getZ l (at_ i) =? -1)) n, b).
Proof.
  intros Hn B. destruct (drop_list l at_ (zseq n) n fl) as (b & ->); [intros i Hi; apply B, zseq_In; auto|]. exists b. unfold countb. do 2 f_equal.
  replace (Z.of_nat (length (zseq n))) with n; [lia|]. unfold zseq. rewrite map_length, seq_length. lia.
Qed.
Lemma count_list (f : Z -> Z -> res Z) (p : Z -> bool) xs : (forall c i, In i xs -> f c i = Ok (if p i then c + 1 else c)) ->
  forall c, foldM f xs c = Ok (c + Z.of_nat (length (filter p xs))).
Proof.
  induction xs as [|x xs IH]; intros F c; cbn [foldM filter]; [f_equal; cbn [length]; lia|]. rewrite F by (left; auto). cbn [bind]. rewrite IH by (intros; apply F; right; auto).
  destruct (p x); cbn [length]; f_equal; lia.
Qed.

Lemma countb_flip p n : countb (fun i => p (n - 1 - i)) n = countb p n.
Proof.
  destruct (Z.lt_ge_cases n 0) as [L|L]; [unfold countb, zseq; replace (Z.to_nat n) with 0%nat by lia; reflexivity|].
  revert p. apply (natlike_ind (fun n => forall p, countb (fun i => p (n - 1 - i)) n = countb p n)); auto. intros k Hk IH p.
  assert (SU : forall q j, 0 <= j -> countb q (Z.succ j) = countb q j + (if q j then 1 else 0)) by (intros q j Hj; unfold Z.succ; rewrite countb_S by auto; unfold b2z; destruct (q j); auto).
  assert (S1 : forall q, countb q (Z.succ k) = countb (fun i => q (i + 1)) k + (if q 0 then 1 else 0)).
  { intros q. clear - Hk SU. apply (natlike_ind (fun k => countb q (Z.succ k) = countb (fun i => q (i + 1)) k + (if q 0 then 1 else 0))); [change (Z.succ 0) with 1; unfold countb, zseq; simpl; destruct (q 0); reflexivity| |auto].
    intros j Hj IH. rewrite (SU q (Z.succ j)) by lia. rewrite IH, SU by lia. fold (Z.succ j). lia. }
  rewrite S1, SU by lia. rewrite <- (IH p). replace (Z.succ k - 1 - 0) with k by lia. f_equal. apply countb_ext. intros i Hi. f_equal. lia.
Qed.

(** ** round trip *)
Definition Fits (m : mesh) : Prop := heFill m < u32max /\ vFill m < u32max /\ fCap m < u32max.
Section M.
Context (m : mesh) (V : Valid m) (FT : Fits m) (PK : fCap m = fFill m + bFill m \/ bFill m = 0).
Let ST := va_st m V.
Let CN := va_cn m V.
Let FH := firstn (Z.to_nat (fFill m)) (fHalfedge m).
Let BH := skipn (length (fHalfedge m) - Z.to_nat (bFill m)) (fHalfedge m).
Let N' := thru (firstn (Z.to_nat (heFill m)) (heNext m)).
Let V' := thru (firstn (Z.to_nat (heFill m)) (heVertex m)).
Let F' := thru (firstn (Z.to_nat (heFill m)) (heFace m)).
Let VH' := thru (firstn (Z.to_nat (vFill m)) (vHalfedge m)).
Let FH' := thru FH ++ thru BH.

Lemma rr_nx h : 0 <= h < heFill m -> getZ N' h = nx m h.
Proof.
  intros Hh. destruct FT as (F1 & _). unfold N'. apply thru_take; [lia|destruct ST; lia|]. fold (nx m h). destruct (Z.eq_dec (nx m h) (-1)) as [->|K]; [unfold u32max; lia|].
  assert (L : liveH m h) by (split; auto). pose proof (cn_nx _ CN h L) as [K1 _]. unfold u32max in *. lia.
Qed.
Lemma rr_ve h : liveH m h -> getZ V' h = ve m h.
Proof. intros L. pose proof (cn_ve _ CN h L) as [K _]. destruct L as [L _]. destruct FT as (_ & F2 & _). apply thru_take; [lia|destruct ST; lia|]. fold (ve m h). unfold u32max in *. lia. Qed.
Lemma fa_range h : liveH m h -> 0 <= fa m h < fCap m.
Proof. intros L. pose proof (st_f m ST) as K. destruct (cn_fa _ CN h L) as [[K1 _]|[K1 _]]; lia. Qed.
Lemma rr_fa h : liveH m h -> getZ F' h = fa m h.
Proof. intros L. pose proof (fa_range h L) as K. destruct L as [L _]. destruct FT as (_ & _ & F3). apply thru_take; [lia|destruct ST; lia|]. fold (fa m h). unfold u32max in *. lia. Qed.
Lemma rr_vh v : 0 <= v < vFill m -> getZ VH' v = vh m v.
Proof.
  intros Hv. destruct FT as (F1 & _). unfold VH'. apply thru_take; [lia|destruct ST; lia|]. fold (vh m v). destruct (Z.eq_dec (vh m v) (-1)) as [->|K]; [unfold u32max; lia|].
  destruct (cn_vh _ CN v (conj Hv K)) as [[K1 _] _]. unfold u32max in *. lia.
Qed.
Lemma fh_range f : 0 <= f < fFill m \/ fCap m - bFill m <= f < fCap m -> -1 <= fh m f < u32max.
Proof.
  intros Hf. destruct (Z.eq_dec (fh m f) (-1)) as [->|K]; [unfold u32max; lia|]. destruct FT as (F1 & _).
  assert (L : liveFL m f) by (destruct Hf; [left|right]; split; auto). destruct (cn_fh _ CN f L) as [[K1 _] _]. lia.
Qed.
Lemma len_FH : zlen (thru FH) = fFill m.
Proof. rewrite zlen_thru. apply take_ok. destruct ST. lia. Qed.
Lemma len_BH : zlen (thru BH) = bFill m.
Proof. rewrite zlen_thru. apply last_ok. destruct ST. lia. Qed.
Lemma rr_fh f : 0 <= f < fFill m + bFill m -> getZ FH' f = fh m f.
Proof.
  intros Hf. unfold FH'. pose proof len_FH as LF. pose proof len_BH as LB. pose proof (st_f m ST) as SF. pose proof (st_fhe m ST) as SL. destruct (Z.lt_ge_cases f (fFill m)) as [L|L].
  - rewrite getZ_app1 by lia. unfold FH. apply thru_take; [lia|lia|apply fh_range; lia].
  - rewrite getZ_app2 by lia. rewrite LF. destruct PK as [PK1|PK1]; [|lia]. assert (E : getZ BH (f - fFill m) = fh m f).
    { unfold BH. rewrite getZ_skipn by lia. unfold fh. f_equal. unfold zlen in SL. lia. }
    rewrite thru_get; rewrite ?E; auto; [rewrite <- (zlen_thru BH), LB; lia|apply fh_range; lia].
Qed.

Lemma rich_ok : exists p m', writeConn m = Ok p /\ readConn p = Ok m' /\ Valid m' /\ SameMesh m m'.
Proof.
  pose proof ST as [S1 S2 S3 S4 S5 S6 S7 S8 S9]. pose proof (va_ct m V) as [T1 T2 T3 T4 T5 T6].
  destruct (take_ok (heNext m) (heFill m) ltac:(lia)) as [E1 L1]. destruct (take_ok (heFace m) (heFill m) ltac:(lia)) as [E2 L2]. destruct (take_ok (heVertex m) (heFill m) ltac:(lia)) as [E3 L3].
  destruct (take_ok (vHalfedge m) (vFill m) ltac:(lia)) as [E4 L4]. destruct (take_ok (fHalfedge m) (fFill m) ltac:(lia)) as [E5 L5]. destruct (last_ok (fHalfedge m) (bFill m) ltac:(lia)) as [E6 L6].
  unfold writeConn. rewrite E1, E2, E3, E4, E5, E6. cbn [bind]. eexists. 
  assert (LN : zlen N' = heFill m) by (unfold N'; rewrite zlen_thru; auto). assert (LVH : zlen VH' = vFill m) by (unfold VH'; rewrite zlen_thru; auto).
  assert (LFH : zlen FH' = fFill m + bFill m) by (unfold FH'; rewrite zlen_app, len_FH, len_BH; auto).
  assert (LV : zlen V' = heFill m) by (unfold V'; rewrite zlen_thru; auto). assert (LF : zlen F' = heFill m) by (unfold F'; rewrite zlen_thru; auto).
  assert (HALF : heFill m / 2 = eFill m) by (rewrite (proj1 S7), Z.mul_comm, Z.div_mul; lia).
  set (lv := fun (l : list Z) (i : Z) => negb (getZ l i =? -1)).
  assert (C1 : countb (fun i => lv VH' i) (vFill m) = nVertices m) by (rewrite T4; apply countb_ext; intros i Hi; unfold lv, liveVb; rewrite rr_vh by auto; auto).
  assert (C2 : countb (fun i => lv N' i) (heFill m) = nHalfedges m) by (rewrite T1; apply countb_ext; intros i Hi; unfold lv, liveHb; rewrite rr_nx by auto; auto).
  assert (C3 : countb (fun i => lv N' (eHe i)) (eFill m) = nEdges m) by (rewrite T3; apply countb_ext; intros i Hi; unfold lv, liveHb, eHe; rewrite rr_nx by lia; auto).
  assert (C4 : countb (fun i => lv FH' i) (fFill m) = nFaces m) by (rewrite T5; apply countb_ext; intros i Hi; unfold lv, liveFb; rewrite rr_fh by lia; auto).
  assert (C5 : countb (fun i => lv FH' (fFill m + i)) (bFill m) = nLoops m).
  { rewrite T6, <- (countb_flip (fun i => lv FH' (fFill m + i))). apply countb_ext. intros i Hi. unfold lv, liveFb. rewrite rr_fh by lia. destruct PK as [PK1|PK1]; [|lia]. replace (fFill m + (bFill m - 1 - i)) with (fCap m - 1 - i) by lia. reflexivity. }
  destruct (drop_ok VH' (fun i => i) (vFill m) true) as (b1 & D1); [lia|intros; lia|]. fold lv in D1. change (foldM (dropDead VH' (fun i => i)) (zseq (vFill m)) (vFill m, true) = Ok (countb (fun i => lv VH' i) (vFill m), b1)) in D1.
  destruct (drop_ok N' (fun i => i) (heFill m) b1) as (b2 & D2); [lia|intros; lia|]. change (foldM (dropDead N' (fun i => i)) (zseq (heFill m)) (heFill m, b1) = Ok (countb (fun i => lv N' i) (heFill m), b2)) in D2.
  destruct (drop_ok N' eHe (eFill m) b2) as (b3 & D3); [lia|intros i Hi; unfold eHe; lia|]. change (foldM (dropDead N' eHe) (zseq (eFill m)) (eFill m, b2) = Ok (countb (fun i => lv N' (eHe i)) (eFill m), b3)) in D3.
  destruct (drop_ok FH' (fun i => i) (fFill m) b3) as (b4 & D4); [lia|intros; lia|]. change (foldM (dropDead FH' (fun i => i)) (zseq (fFill m)) (fFill m, b3) = Ok (countb (fun i => lv FH' i) (fFill m), b4)) in D4.
  destruct (drop_ok FH' (fun i => fFill m + i) (bFill m) b4) as (b5 & D5); [lia|intros; lia|]. change (foldM (dropDead FH' (fun i => fFill m + i)) (zseq (bFill m)) (bFill m, b4) = Ok (countb (fun i => lv FH' (fFill m + i)) (bFill m), b5)) in D5.
  rewrite C1 in D1. rewrite C2 in D2. rewrite C3 in D3. rewrite C4 in D4. rewrite C5 in D5.
  set (m0 := mkMesh N' V' F' VH' FH' (nHalfedges m) 0 (nEdges m) (nVertices m) (nFaces m) (nLoops m) (heFill m) (eFill m) (vFill m) (fFill m) (bFill m) (heFill m) (eFill m) (vFill m) (fFill m + bFill m) b5 []).
  assert (D6 : foldM (fun c h => let* n := next m0 h in if n =? INVALID then Ok c else let* b := isInterior m0 h in Ok (if b : bool then c + 1 else c)) (zseq (heFill m)) 0 = Ok (nInterior m)).
  { rewrite (count_list _ (intHb m)); [rewrite T2; unfold countb; reflexivity|]. intros c h Hh. apply zseq_In in Hh. unfold next, isInterior, faceOf, isLoop, m0. cbn [heNext heFace fFill]. rewrite rdZ_ok by lia. cbn [bind].
    rewrite rr_nx by auto. unfold intHb, liveHb. change INVALID with (-1). destruct (Z.eqb_spec (nx m h) (-1)) as [K|K]; cbn [negb andb]; auto. rewrite rdZ_ok by lia. cbn [bind].
    rewrite rr_fa by (split; auto). pose proof (fa_range h (conj Hh K)) as FR. destruct (Z.ltb_spec (fa m h) 0); [lia|]. reflexivity. }
  set (m' := mkMesh N' V' F' VH' FH' (nHalfedges m) (nInterior m) (nEdges m) (nVertices m) (nFaces m) (nLoops m) (heFill m) (eFill m) (vFill m) (fFill m) (bFill m) (heFill m) (eFill m) (vFill m) (fFill m + bFill m) b5 []).
  exists m'. split; [reflexivity|].
  assert (RD : readConn (mkPly (map pack (firstn (Z.to_nat (heFill m)) (heNext m))) (map pack (firstn (Z.to_nat (heFill m)) (heVertex m))) (map pack (firstn (Z.to_nat (heFill m)) (heFace m))) (map pack (firstn (Z.to_nat (vFill m)) (vHalfedge m))) (map pack FH) (map pack BH)) = Ok m').
  { unfold readConn, fromArrays. cbn [pNext pVert pFace pVHe pFHe pBlHe]. change (map unpack (map pack (firstn (Z.to_nat (heFill m)) (heNext m)))) with N'. change (map unpack (map pack (firstn (Z.to_nat (heFill m)) (heVertex m)))) with V'.
    change (map unpack (map pack (firstn (Z.to_nat (heFill m)) (heFace m)))) with F'. change (map unpack (map pack (firstn (Z.to_nat (vFill m)) (vHalfedge m)))) with VH'. change (map unpack (map pack FH) ++ map unpack (map pack BH)) with FH'. change (map unpack (map pack BH)) with (thru BH).
    rewrite LN, LVH, LFH, len_BH, HALF. replace (fFill m + bFill m - bFill m) with (fFill m) by lia. replace (fFill m + bFill m - fFill m) with (bFill m) by lia.
    rewrite D1. cbn [bind]. rewrite D2. cbn [bind]. rewrite D3. cbn [bind]. rewrite D4. cbn [bind]. rewrite D5. cbn [bind]. fold m0. rewrite D6. cbn [bind]. reflexivity. }
  split; [exact RD|]. clear RD.
  assert (QH : forall h, liveH m' h <-> liveH m h). { intros h. unfold liveH, nx at 1. unfold m'. cbn [heNext heFill]. split; intros [K1 K2]; (split; [auto|]); rewrite rr_nx in * by auto; auto. }
  assert (QV : forall v, liveV m' v <-> liveV m v). { intros v. unfold liveV, vh at 1. unfold m'. cbn [vHalfedge vFill]. split; intros [K1 K2]; (split; [auto|]); rewrite rr_vh in * by auto; auto. }
  assert (QF : forall f, liveF m' f <-> liveF m f). { intros f. unfold liveF, fh at 1. unfold m'. cbn [fHalfedge fFill]. split; intros [K1 K2]; (split; [auto|]); rewrite rr_fh in * by lia; auto. }
  assert (QL : forall f, liveL m' f <-> liveL m f).
  { intros f. unfold liveL, fh at 1. unfold m'. cbn [fHalfedge fFill bFill fCap]. destruct PK as [PK1|PK1]; [|split; intros [K1 _]; lia]. rewrite PK1. split; intros [K1 K2]; (split; [auto|]); rewrite rr_fh in * by lia; auto. }
  assert (QX : forall h, liveH m h -> nx m' h = nx m h /\ ve m' h = ve m h /\ fa m' h = fa m h) by (intros h Hh; unfold nx at 1, ve at 1, fa at 1, m'; cbn [heNext heVertex heFace]; split; [apply rr_nx, Hh|split; [apply rr_ve; auto|apply rr_fa; auto]]).
  assert (QVH : forall v, liveV m v -> vh m' v = vh m v) by (intros v Hv; unfold vh at 1, m'; cbn [vHalfedge]; apply rr_vh, Hv).
  assert (QFH : forall f, liveFL m f -> fh m' f = fh m f).
  { intros f Hf. unfold fh at 1, m'. cbn [fHalfedge]. apply rr_fh. destruct Hf as [[K _]|[K _]]; [lia|]. destruct PK; lia. }
  assert (SM : SameMesh m m').
  { constructor; auto; try (cbn; auto 10; fail). intros i Hi. unfold m'. cbn [fCap]. destruct PK; lia. }
  split; [|exact SM].
  assert (ST' : Stored m').
  { unfold m'. constructor; cbn [heNext heVertex heFace vHalfedge fHalfedge heCap eCap vCap fCap heFill eFill vFill fFill bFill]; lia. }
  constructor; [exact ST'| | |].
  - constructor; unfold m'; cbn [nHalfedges nInterior nEdges nVertices nFaces nLoops heFill eFill vFill fFill bFill fCap]; fold m'.
    + symmetry. exact C2.
    + rewrite T2. apply countb_ext. intros h Hh. unfold intHb, liveHb. replace (nx m' h) with (nx m h) by (symmetry; apply rr_nx; auto). destruct (Z.eqb_spec (nx m h) (-1)) as [K|K]; auto. cbn [negb andb].
      rewrite (proj2 (proj2 (QX h (conj Hh K)))). reflexivity.
    + symmetry. exact C3.
    + symmetry. exact C1.
    + symmetry. exact C4.
    + rewrite T6. apply countb_ext. intros i Hi. unfold liveFb. destruct PK as [PK1|PK1]; [|lia]. rewrite PK1. replace (fh m' (fFill m + bFill m - 1 - i)) with (fh m (fFill m + bFill m - 1 - i)); auto. symmetry. apply rr_fh. lia.
  - apply (iso_connected m m' (fun h => h) (fun h => h) (fun v => v) (fun v => v) (fun f => f) (fun f => f) ST ST' CN).
    + constructor; try (intros x Hx; split; [first [apply QH|apply QV|apply QF|apply QL]; exact Hx|reflexivity]); try (intros h Hh; apply (QX h Hh)). reflexivity.
    + intros v Hv. destruct (cn_vh _ CN v Hv) as [K1 K2]. exists (vh m v). auto.
    + intros f Hf. rewrite QFH by auto. destruct (cn_fh _ CN f Hf) as [K1 K2]. auto.
    + intros h Hh Ex M. exact (cn_ebd _ CN h Hh M Ex).
  - constructor; unfold m'; cbn [vFill vCap fFill fCap bFill]; intros; lia.
Qed.

End M.

(** ** element data *)
Section D.
Context (m : mesh) (V : Valid m).
Let ST := va_st m V.
Lemma property_ok T (k : ekind) (d : mdata T) (d0 : T) m' : Valid m' -> SameMesh m m' -> (forall i, In i (live_list (okayAt m k) (Z.to_nat (fillOf m k))) -> (i < length (dat d))%nat) ->
  exists v d', addProperty m k d = Ok v /\ getProperty m' k d0 v = Ok d' /\
    elements m' k = elements m k /\ forall els i, elements m k = Ok els -> In i els -> md_get d' i = md_get d i.
Proof.
  intros V'' SM LD.
  assert (EL : live_list (okayAt m' k) (Z.to_nat (fillOf m' k)) = live_list (okayAt m k) (Z.to_nat (fillOf m k))).
  { destruct SM as [(A1 & A2 & A3 & A4 & A5) _ QH QV QF QL QQ QX QVH QFH].
    assert (FE : fillOf m' k = fillOf m k) by (destruct k; cbn [fillOf]; auto). rewrite FE. unfold live_list. apply filter_ext_in. intros i Hi. apply in_seq in Hi. rewrite <- (Nat2Z.id i) in Hi.
    assert (BI : 0 <= Z.of_nat i < fillOf m k) by lia. clear Hi. revert BI. unfold okayAt. generalize (Z.of_nat i). clear i. intros i Bi.
    assert (NB : forall a b : bool, (a = true <-> b = true) -> a = b) by (intros [] []; intuition). change INVALID with (-1). destruct k; cbn [fillOf] in Bi; apply NB; rewrite ?Bool.andb_true_iff, ?Bool.negb_true_iff, ?Z.eqb_neq.
    - specialize (QV i). unfold liveV, vh in QV. rewrite A3 in QV. tauto.
    - specialize (QH i). unfold liveH, nx in QH. rewrite A1 in QH. tauto.
    - specialize (QH i). unfold liveH, nx in QH. rewrite A1 in QH. split; intros [K1 K2].
      + assert (L : liveH m i) by (split; auto; apply QH; auto). destruct (QX i L) as (_ & _ & K3). unfold fa in K3. split; [apply QH; auto|]. unfold isLoop in *. rewrite K3, A4 in K2. exact K2.
      + assert (L : liveH m i) by (split; auto). destruct (QX i L) as (_ & _ & K3). unfold fa in K3. split; [apply QH; auto|]. unfold isLoop in *. rewrite K3, A4. exact K2.
    - specialize (QH (eHe i)). unfold liveH, nx in QH. rewrite A1 in QH. pose proof (st_edge m ST) as [SE _]. assert (B2 : 0 <= eHe i < heFill m) by (unfold eHe; lia). tauto.
    - specialize (QF i). unfold liveF, fh in QF. rewrite A4 in QF. tauto.
    - specialize (QL (fCap m - 1 - i)). unfold liveL, fh in QL. pose proof (QQ i Bi) as E. rewrite A5 in QL. rewrite E.
      assert (B2 : fCap m - bFill m <= fCap m - 1 - i < fCap m) by lia. assert (B3 : fCap m' - bFill m <= fCap m - 1 - i < fCap m') by (rewrite <- E; lia). tauto. }
  set (els := live_list (okayAt m k) (Z.to_nat (fillOf m k))) in *.
  assert (E1 : elements m k = Ok els) by apply iterate_ok. assert (E2 : elements m' k = Ok els) by (unfold elements; rewrite iterate_ok; f_equal; exact EL).
  destruct (iterate_mesh m k V) as (l & E & _ & ND & LN & _). rewrite E1 in E. injection E as <-.
  destruct (iterate_mesh m' k V'') as (l & E & _ & _ & LN' & RG). rewrite E2 in E. injection E as <-.
  destruct (fromVector_toVector els d ND LD) as (v & TV & LV & BACK). unfold md_toVector in TV. rewrite Nat.eqb_refl in TV.
  exists v. destruct (BACK (newData m' k d0)) as (d' & FV & G1 & G2).
  { intros i Hi. unfold newData, md_new. cbn [dat]. rewrite repeat_length.
    assert (B : (i < Z.to_nat (fillOf m' k))%nat) by (rewrite <- EL in Hi; apply filter_In in Hi as [Hi _]; apply in_seq in Hi; lia).
    pose proof (va_st m' V'') as [W1 W2 W3 W4 W5 W6 W7 W8 W9]. destruct k; cbn [fillOf capacity] in *; lia. }
  exists d'. assert (NE : nElements m k = nElements m' k) by lia. unfold addProperty, getProperty. rewrite E1, E2. cbn [bind]. rewrite TV. cbn [bind]. rewrite LV, LN, NE, Z.eqb_refl. cbn [guard bind]. rewrite FV.
  split; auto. split; auto. split; auto. intros l i Hl Hi; injection Hl as <-; auto.
Qed.
End D.
