(** The loop over the faces, and the whole subdivision. *)
From Coq Require Import Reals Permutation.
From Verif Require Import Base DataModel MeshModel MeshModel2 MeshSpec MeshBase MeshDel MeshOpSpec MeshOrbit MeshExec MeshCompressModel MeshCompress MeshDataModel MeshHistory CollapseModel IntrinsicModel GeoModel FastModel SubdivModel SubdivSpec Subdiv1 Subdiv2 DataProofs.
Open Scope Z_scope.

Section Faces.
Context (m g1 : mesh) (V : Valid m) (F S M : Z -> Z) (SD : Sided m (fun e => liveH m (eHe e)) g1 F S M).
Let CN := va_cn _ V.
Lemma quart_iff done done' g X C : (forall h, liveH m h -> ~ ext m h -> done (fa m h) <-> done' (fa m h)) -> (forall f, done f -> done' f) -> Quart m g1 F S M done g X C -> Quart m g1 F S M done' g X C.
Proof.
  intros K K' [A1 A2 A3 A4 A5 A6 A7 A8]. constructor; auto.
  - intros x. rewrite A4. split; intros [B|(h & L & NE & Dn & Hx)]; auto; right; exists h; split; auto; split; auto; split; auto; apply K; auto.
  - intros h L [NE|Dn]; apply A6; auto. 
  - intros h L NE Dn. apply A7; auto. apply K; auto.
Qed.
Definition degSum (i : Z) : Z := countb (fun h => liveHb m h && (fa m h <? i)) (heFill m).
Definition sidesOf (f : Z) : list Z := filter (fun h => liveHb m h && (fa m h =? f)) (zseq (heFill m)).
Lemma liveHb_iff h : 0 <= h < heFill m -> liveHb m h = true <-> liveH m h.
Proof. intros H. unfold liveHb, liveH. rewrite negb_true_iff, Z.eqb_neq. tauto. Qed.
Lemma fa_range h : liveH m h -> 0 <= fa m h < fCap m.
Proof. intros L. apply (cn_fa _ CN) in L. apply (liveFL_bnd m V) in L. pose proof (st_fhe _ (va_st _ V)). lia. Qed.
Lemma in_sides f h : In h (sidesOf f) <-> inF m f h.
Proof.
  unfold sidesOf, inF. rewrite filter_In, zseq_In, andb_true_iff, Z.eqb_eq. split.
  - intros (A & B & D). split; auto. apply liveHb_iff; auto.
  - intros [A B]. assert (R : 0 <= h < heFill m) by apply A. rewrite liveHb_iff by auto. auto.
Qed.
Lemma sides_nd f : NoDup (sidesOf f).
Proof. apply NoDup_filter, zseq_NoDup. Qed.
Lemma degSum_S i : degSum (i + 1) = degSum i + Z.of_nat (length (sidesOf i)).
Proof.
  unfold degSum. rewrite (countb_split (fun h => liveHb m h && (fa m h <? i)) (fun h => liveHb m h && (fa m h <? i + 1))) by (intros h; rewrite !andb_true_iff, !Z.ltb_lt; intros []; split; auto; lia).
  f_equal. unfold countb, sidesOf. do 2 f_equal. apply filter_ext. intros h. destruct (liveHb m h); cbn [andb]; auto. destruct (Z.ltb_spec (fa m h) i), (Z.ltb_spec (fa m h) (i + 1)), (Z.eqb_spec (fa m h) i); cbn; auto; lia.
Qed.
Lemma degSum_0 : degSum 0 = 0.
Proof.
  unfold degSum. rewrite (countb_ext _ (fun _ => false)).
  - unfold countb. induction (zseq (heFill m)) as [|x l IH]; cbn; auto.
  - intros h Hh. destruct (liveHb m h) eqn:E; auto. apply liveHb_iff in E; auto. apply fa_range in E. cbn [andb]. lia.
Qed.
Lemma degSum_all : degSum (fFill m) = nInterior m.
Proof. rewrite (ct_int _ (va_ct _ V)). apply countb_ext. intros h Hh. unfold intHb. f_equal. lia. Qed.

Record FaceTo (facePt : Z -> V3) (r0 : refine) (i : nat) (r : refine) (X C : Z -> Z) : Prop := {
  ft_q : Quart m g1 F S M (fun k => k < Z.of_nat i) (rM r) X C;
  ft_v : forall v, v < vFill g1 -> rV r v = rV r0 v /\ rP r v = rP r0 v;
  ft_n : forall v, vFill g1 <= v < vFill (rM r) -> rV r v = false;
  ft_f : forall k, Z.of_nat i <= k < fFill m -> rF r k = true;
  ft_p : forall k, liveF m k -> k < Z.of_nat i -> rP r (C k) = facePt k /\ vFill g1 <= C k < vFill (rM r);
  ft_inj : forall k j, liveF m k -> liveF m j -> k < Z.of_nat i -> j < Z.of_nat i -> C k = C j -> k = j;
  ft_cnt : nVertices (rM r) = nVertices g1 + countb (liveFb m) (Z.of_nat i) /\ nEdges (rM r) = nEdges g1 + degSum (Z.of_nat i) /\ nFaces (rM r) = nFaces g1 + degSum (Z.of_nat i) - countb (liveFb m) (Z.of_nat i) /\ nLoops (rM r) = nLoops g1 }.
Context (r0 : refine) (R0M : rM r0 = g1) (R0v : forall v, v < vFill m -> rV r0 v = true) (R0n : forall v, vFill m <= v < vFill g1 -> rV r0 v = false) (R0f : forall k, rF r0 k = true).
Context (facePt : Z -> V3).
Lemma faceTo_step i r X C : FaceTo facePt r0 i r X C -> Z.of_nat i < fFill m ->
  exists r' X' C', (if okayAt (rM r) EFace i then splitFace facePt r (Z.of_nat i) else Ok r) = Ok r' /\ FaceTo facePt r0 (Datatypes.S i) r' X' C'.
Proof.
  intros [FQ FV FN FF FP FI FC] Hi. set (f := Z.of_nat i) in *. set (g := rM r) in *. pose proof (q_v _ _ _ _ _ _ _ _ _ FQ) as VG.
  destruct (q_fill _ _ _ _ _ _ _ _ _ FQ) as (Q1 & Q2 & Q3). destruct (sd_fill _ _ _ _ _ _ SD) as (P1 & P2 & P3 & P4 & P5).
  assert (Es : Z.of_nat (Datatypes.S i) = f + 1) by lia.
  assert (OK : okayAt g EFace i = true <-> liveF m f). { rewrite (okay_live g EFace i VG) by (cbn [fillOf]; lia). apply (q_f _ _ _ _ _ _ _ _ _ FQ); lia. }
  assert (CS : countb (liveFb m) (f + 1) = countb (liveFb m) f + b2z (liveFb m f)) by (apply countb_S; lia).
  destruct (okayAt g EFace i) eqn:EO.
  - assert (L : liveF m f) by (apply OK; auto). assert (Nf : ~ f < f) by lia.
    assert (B1 : b2z (liveFb m f) = 1). { unfold liveFb. destruct L as [_ L]. rewrite (proj2 (Z.eqb_neq _ _) L). reflexivity. }
    destruct (split_face m g1 V F S M SD (fun k => k < f) g X C FQ f L Nf facePt r (sidesOf f) eq_refl) as (r' & X2 & C2 & R & Q' & C2f & C2o & VF & RV & RP & RF & N1 & N2 & N3 & N4).
    + apply FF; lia.
    + apply sides_nd.
    + apply in_sides.
    + intros v Hv. destruct (FV v) as [-> _]; [lia|]. auto.
    + intros v Hv. destruct (Z_lt_dec v (vFill g1)) as [K|K]; [destruct (FV v K) as [-> _]; apply R0n; lia|apply FN; lia].
    + exists r', X2, C2. split; [exact R|]. constructor.
      * rewrite Es. eapply quart_iff; [| |exact Q']; cbn beta; intros; lia.
      * intros v Hv. rewrite RV, RP. unfold setf. rewrite (proj2 (Z.eqb_neq _ _)) by lia. auto.
      * intros v Hv. rewrite RV. unfold setf. destruct (Z.eqb_spec v (vFill g)); auto. apply FN. lia.
      * intros k Hk. rewrite RF by lia. apply FF. lia.
      * intros k Lk Hk. rewrite RP. unfold setf. destruct (Z.eq_dec k f) as [->|Nk]; [rewrite C2f, Z.eqb_refl; split; [auto|lia]|]. rewrite C2o by auto. destruct (FP k Lk) as [A B]; [lia|]. rewrite (proj2 (Z.eqb_neq _ _)) by lia. split; [auto|lia].
      * intros k j Lk Lj Hk Hj E. destruct (Z.eq_dec k f) as [->|Nk], (Z.eq_dec j f) as [->|Nj]; auto.
        -- rewrite C2f, C2o in E by auto. destruct (FP j Lj) as [_ A]; lia.
        -- rewrite C2f, C2o in E by auto. destruct (FP k Lk) as [_ A]; lia.
        -- rewrite !C2o in E by auto. apply FI; auto; lia.
      * rewrite Es, CS, B1, degSum_S. destruct FC as (D1 & D2 & D3 & D4). repeat split; lia.
  - exists r, X, C. split; [reflexivity|]. assert (NL : ~ liveF m f) by (intros K; apply OK in K; discriminate K).
    assert (B0 : b2z (liveFb m f) = 0). { unfold liveFb. destruct (Z.eqb_spec (fh m f) (-1)) as [K|K]; [reflexivity|]. exfalso. apply NL. split; auto; lia. }
    assert (NH : forall h, liveH m h -> fa m h <> f). { intros h L E. apply (cn_fa _ CN) in L. rewrite E in L. destruct L as [L|[L _]]; auto. pose proof (st_f _ (va_st _ V)). lia. }
    assert (S0 : Z.of_nat (length (sidesOf f)) = 0). { destruct (sidesOf f) as [|h l] eqn:E; auto. exfalso. assert (K : In h (sidesOf f)) by (rewrite E; left; auto). apply in_sides in K. destruct K as [K1 K2]. apply (NH h); auto. }
    constructor; auto; try rewrite Es.
    + eapply quart_iff; [| |exact FQ]; cbn beta; [intros h L _; pose proof (NH h L); lia|intros; lia].
    + intros k K. apply FF. lia.
    + intros k Lk Hk. apply FP; auto. assert (k <> f) by (intros ->; auto). lia.
    + intros k j Lk Lj Hk Hj. assert (k <> f) by (intros ->; auto). assert (j <> f) by (intros ->; auto). apply FI; auto; lia.
    + rewrite CS, B0, degSum_S, S0, !Z.add_0_r. exact FC.
Qed.
Lemma split_faces : exists r X C, visitAll EFace (splitFace facePt) r0 = Ok r /\ FaceTo facePt r0 (Z.to_nat (fFill m)) r X C.
Proof.
  set (body := fun r i => if okayAt (rM r) EFace i then splitFace facePt r (Z.of_nat i) else Ok r). destruct (sd_fill _ _ _ _ _ _ SD) as (P1 & P2 & P3 & P4 & P5).
  assert (G : forall n, (n <= Z.to_nat (fFill m))%nat -> exists r X C, foldM body (seq 0 n) r0 = Ok r /\ FaceTo facePt r0 n r X C).
  { induction n as [|n IH]; intros Hn.
    - exists r0, (fun h => h), (fun k => k). split; [reflexivity|]. constructor; auto; rewrite ?R0M.
      + eapply quart_iff; [| |apply quart_start; auto]; cbn beta; [|tauto]. intros h L _. apply fa_range in L. lia.
      + intros v K. lia.
      + intros k [K _] K'. lia.
      + change (Z.of_nat 0) with 0. rewrite countb_0, degSum_0 by lia. repeat split; lia.
    - destruct IH as (r & X & C & E & FT); [lia|]. destruct (faceTo_step n r X C FT) as (r' & X' & C' & E' & FT'); [lia|].
      exists r', X', C'. split; auto. rewrite seq_S, foldM_app, E. cbn [bind foldM]. cbn [Nat.add]. unfold body at 1. rewrite E'. reflexivity. }
  destruct (G _ (le_n _)) as (r & X & C & E & FT). exists r, X, C. split; auto. unfold visitAll. cbn [fillOf]. rewrite R0M, P1. exact E.
Qed.
End Faces.

(** ** the result before compression *)
Section Result.
Context (m g1 : mesh) (V : Valid m) (F S M : Z -> Z) (SD : Sided m (fun e => liveH m (eHe e)) g1 F S M).
Let CN := va_cn _ V.
Context (MI : forall e k, liveH m (eHe e) -> liveH m (eHe k) -> M e = M k -> e = k).
Context (done : Z -> Prop) (g : mesh) (X C : Z -> Z) (Q : Quart m g1 F S M done g X C) (AD : forall f, liveF m f -> done f).
Context (CR : forall k, liveF m k -> vFill g1 <= C k) (CI : forall k j, liveF m k -> liveF m j -> C k = C j -> k = j).
Lemma int_face h : liveH m h -> ~ ext m h -> liveF m (fa m h).
Proof. intros L NE. destruct (cn_fa _ CN h L) as [K|[K _]]; auto. exfalso. apply NE. unfold ext. pose proof (st_f _ (va_st _ V)). lia. Qed.
Lemma sd h : liveH m h -> ve g1 (F h) = ve m h /\ ve g1 (S h) = M (edge h) /\ tw (F h) = S (tw h) /\ vFill m <= M (edge h) < vFill g1 /\ liveH g1 (F h) /\ liveH g1 (S h) /\ liveH g (F h) /\ liveH g (S h) /\ ve g (F h) = ve m h /\ ve g (S h) = M (edge h).
Proof.
  intros L. destruct (sd_done _ _ _ _ _ _ SD h L (dn m V h L)) as (E1 & E2 & _ & _ & E5 & E6). destruct (liveFS m g1 F S M SD h L) as [L1 L2].
  assert (L3 : liveH g (F h)) by (apply (q_live _ _ _ _ _ _ _ _ _ Q); auto). assert (L4 : liveH g (S h)) by (apply (q_live _ _ _ _ _ _ _ _ _ Q); auto).
  rewrite !(q_ve _ _ _ _ _ _ _ _ _ Q) by auto. auto 15.
Qed.
Lemma qd h : liveH m h -> ~ ext m h -> nx g (F h) = X h /\ nx g (tw (X h)) = S h /\ nx g (S h) = F (nx m h) /\ nx g (X (nx m h)) = tw (X h) /\ ve g (X h) = M (edge h) /\ ve g (tw (X h)) = C (fa m h) /\ ~ ext g (F h) /\ liveH g (X h) /\ liveH g (tw (X h)) /\ heFill g1 <= X h.
Proof.
  intros L NE. destruct (q_done _ _ _ _ _ _ _ _ _ Q h L NE) as (K0 & K1 & K2 & K3 & K4 & K5 & K6 & K7 & _); [apply AD, int_face; auto|].
  assert (LX : liveH g (X h)) by (apply (q_live _ _ _ _ _ _ _ _ _ Q); right; exists h; split; auto; split; auto; split; auto; apply AD, int_face; auto).
  do 8 (split; [auto|]). split; auto. apply (cn_tw _ (va_cn _ (q_v _ _ _ _ _ _ _ _ _ Q))); auto.
Qed.
Lemma nx_int h : liveH m h -> ~ ext m h -> liveH m (nx m h) /\ ~ ext m (nx m h) /\ fa m (nx m h) = fa m h.
Proof. intros L NE. assert (E : fa m (nx m h) = fa m h) by (apply (cn_fnx _ CN); auto). split; [apply (cn_nx _ CN); auto|]. split; auto. unfold ext in *. rewrite E. auto. Qed.
Lemma round h : liveH m h -> ~ ext m h -> exists p, liveH m p /\ ~ ext m p /\ nx m p = h /\ fa m p = fa m h /\ nx g (F h) = X h /\ nx g (X h) = tw (X p) /\ nx g (tw (X p)) = S p /\ nx g (S p) = F h.
Proof.
  intros L NE. destruct (prev_ok m V h L) as (p & P1 & P2 & P3 & _). assert (NP : ~ ext m p) by (unfold ext in *; rewrite P3; auto). exists p. destruct (qd h L NE) as (A1 & _). destruct (qd p P1 NP) as (B1 & B2 & B3 & B4 & _). rewrite P2 in *. auto 10.
Qed.
Lemma refined_quart : Refined m g (fun v => v) M C F.
Proof.
  pose proof (va_cn _ (q_v _ _ _ _ _ _ _ _ _ Q)) as CG. destruct (sd_fill _ _ _ _ _ _ SD) as (P1 & P2 & P3 & P4 & P5).
  assert (ME : forall e, liveH m (eHe e) -> vFill m <= M e < vFill g1) by (intros e L; destruct (sd _ L) as (_ & _ & _ & K & _); rewrite edge_eHe in K; auto).
  assert (FG : forall h, liveH m h -> F h < heFill g1 /\ S h < heFill g1) by (intros h L; destruct (sd h L) as (_ & _ & _ & _ & [A _] & [B _] & _); lia).
  assert (ALL : forall x, liveH g x -> exists h, liveH m h /\ (x = F h \/ x = S h \/ (~ ext m h /\ (x = X h \/ x = tw (X h))))).
  { intros x L. apply (q_live _ _ _ _ _ _ _ _ _ Q) in L. destruct L as [L|(h & L & NE & _ & Hx)]; [apply (sd_live _ _ _ _ _ _ SD) in L as (h & L & [->| ->]); exists h; auto|exists h; auto]. }
  constructor.
  - intros v. split.
    + intros L. destruct (cn_vh _ CG v L) as [Lh <-]. destruct (ALL _ Lh) as (h & L' & [->|[->|[NE [->| ->]]]]).
      * left. exists (ve m h). split; [apply (cn_ve _ CN); auto|apply sd; auto].
      * right. left. exists (edge h). split; [apply dn; auto|apply sd; auto].
      * right. left. exists (edge h). split; [apply dn; auto|apply qd; auto].
      * right. right. exists (fa m h). split; [apply int_face; auto|apply qd; auto].
    + intros [(u & L & ->)|[(e & L & ->)|(f & L & ->)]].
      * destruct (cn_vh _ CN u L) as [Lh E]. destruct (sd _ Lh) as (_ & _ & _ & _ & _ & _ & A & _ & B & _). rewrite <- E, <- B. apply (cn_ve _ CG); auto.
      * destruct (sd _ L) as (_ & _ & _ & _ & _ & _ & _ & A & _ & B). rewrite edge_eHe in B. rewrite <- B. apply (cn_ve _ CG); auto.
      * destruct (cn_fh _ CN f (or_introl L)) as [Lh E]. assert (NE : ~ ext m (fh m f)) by (unfold ext; rewrite E; destruct L as [L _]; lia). destruct (qd _ Lh NE) as (_ & _ & _ & _ & _ & B & _ & _ & A & _). rewrite E in B. rewrite <- B. apply (cn_ve _ CG); auto.
  - auto.
  - exact MI.
  - exact CI.
  - intros u e f [Lu _] Le Lf. apply ME in Le. apply CR in Lf. lia.
  - intros h L NE k. unfold k. destruct (sd h L) as (_ & _ & _ & _ & _ & _ & A1 & _ & A2 & _). destruct (qd h L NE) as (B1 & _ & _ & _ & B5 & _ & B7 & _). destruct (round h L NE) as (p & Lp & NP & Ep & Fp & R1 & R2 & R3 & R4).
    rewrite R1, R2, R3, R4. destruct (sd p Lp) as (_ & _ & _ & _ & _ & _ & _ & _ & _ & D2). destruct (qd p Lp NP) as (_ & _ & _ & _ & _ & D6 & _). rewrite Fp in D6. do 6 (split; [auto|]). intros p' Lp' Ep'. assert (p' = p) by (apply (cn_inj _ CN); auto; congruence). subst p'. auto.
  - intros x L NE. assert (EX : forall h, liveH m h -> ext m h -> ext g (F h) /\ ext g (S h)).
    { intros h Lh Eh. destruct (q_todo _ _ _ _ _ _ _ _ _ Q h Lh) as (_ & _ & K1 & K2); [auto|]. apply side_ext in K1. apply side_ext in K2. tauto. }
    assert (DI : forall h, ext m h \/ ~ ext m h) by (intros h; unfold ext; lia).
    destruct (ALL x L) as (h & Lh & Hx). destruct Hx as [->|[->|[NEh Hx]]].
    + exists h. destruct (DI h) as [K|K]; [destruct (EX h Lh K); tauto|auto].
    + destruct (DI h) as [K|K]; [destruct (EX h Lh K); tauto|]. destruct (nx_int h Lh K) as (L' & N' & _). destruct (round _ L' N') as (p & Lp & NP & Ep & Fp & R1 & R2 & R3 & R4). assert (p = h) by (apply (cn_inj _ CN); auto). subst p. exists (nx m h). rewrite R1, R2, R3. auto 10.
    + destruct Hx as [->| ->].
      * exists h. destruct (qd h Lh NEh) as (-> & _). auto 10.
      * destruct (nx_int h Lh NEh) as (L' & N' & _). destruct (round _ L' N') as (p & Lp & NP & Ep & Fp & R1 & R2 & R3 & R4). assert (p = h) by (apply (cn_inj _ CN); auto). subst p. exists (nx m h). rewrite R1, R2. auto 10.
  - intros h k Lh Lk Nh Nk. destruct (round k Lk Nk) as (p & Lp & NP & Ep & Fp & R1 & R2 & R3 & R4). rewrite R1, R2, R3. destruct (FG h Lh) as [A _]. destruct (qd k Lk Nk) as (_ & _ & _ & _ & B5 & _ & _ & _ & _ & B10). destruct (qd p Lp NP) as (_ & _ & _ & _ & _ & D6 & _ & _ & _ & _).
    destruct (sd h Lh) as (_ & _ & _ & _ & _ & _ & _ & _ & A2 & _). pose proof (oldV m V h Lh) as OV. pose proof (CR _ (int_face p Lp NP)) as CC.
    split; [apply (sd_inj _ _ _ _ _ _ SD); auto|]. split; [lia|]. split; [intros K; rewrite K in A2; lia|apply (FS_neq m g1 V F S M SD); auto].
  - intros h L NE. destruct (nx_int h L NE) as (L' & N' & _). destruct (round _ L' N') as (p & Lp & NP & Ep & Fp & R1 & R2 & R3 & R4). assert (p = h) by (apply (cn_inj _ CN); auto). subst p. rewrite R1, R2. destruct (qd h L NE) as (-> & _). auto.
  - intros h L NE NT. assert (Lt : liveH m (tw h)) by (apply (cn_tw _ CN); auto). destruct (nx_int _ Lt NT) as (L' & N' & _). destruct (round _ L' N') as (p & Lp & NP & Ep & Fp & R1 & R2 & R3 & R4). assert (p = tw h) by (apply (cn_inj _ CN); auto). subst p. rewrite R1, R2, R3. apply sd; auto.
  - intros h L NE ET. assert (Lt : liveH m (tw h)) by (apply (cn_tw _ CN); auto). destruct (sd h L) as (_ & _ & -> & _). destruct (q_todo _ _ _ _ _ _ _ _ _ Q _ Lt) as (_ & _ & _ & K); [auto|]. apply side_ext in K. tauto.
Qed.
End Result.

(** ** compression *)
Lemma refined_renumbered m g g' vt md ce corner : Refined m g vt md ce corner -> Valid g -> Valid m -> Renumbered g g' ->
  Refined m g' (fun v => newV g (vt v)) (fun e => newV g (md e)) (fun f => newV g (ce f)) (fun h => newH g (corner h)).
Proof.
  intros RF VG VM RN. pose proof (va_cn _ VG) as CG. pose proof (va_cn _ VM) as CN. destruct (newIndex_monotone g) as (MH & MV & _).
  assert (IH : forall a b, liveH g a -> liveH g b -> newH g a = newH g b -> a = b) by (intros a b La Lb K; destruct (Z.lt_trichotomy a b) as [H|[H|H]]; auto; apply MH in H; auto; lia).
  assert (IV : forall a b, liveV g a -> liveV g b -> newV g a = newV g b -> a = b) by (intros a b La Lb K; destruct (Z.lt_trichotomy a b) as [H|[H|H]]; auto; apply MV in H; auto; lia).
  destruct RF as [A1 A2 A3 A4 A5 A6 A7 A8 A9 A10 A11].
  assert (LT : forall u, liveV m u -> liveV g (vt u)) by (intros u L; apply A1; eauto). assert (LM : forall e, liveH m (eHe e) -> liveV g (md e)) by (intros e L; apply A1; eauto). assert (LC : forall f, liveF m f -> liveV g (ce f)) by (intros f L; apply A1; eauto).
  assert (NXG : forall x, liveH g x -> liveH g (nx g x)) by apply (cn_nx _ CG).
  assert (EX : forall x, liveH g x -> ext g' (newH g x) <-> ext g x).
  { intros x L. pose proof (rn_side _ _ RN x L) as K. unfold side, newSide, ext in *. destruct (Z.leb_spec (fFill g) (fa g x)), (Z.leb_spec (fFill g') (fa g' (newH g x))); try discriminate K; split; lia. }
  assert (LK : forall h, liveH m h -> ~ ext m h -> liveH g (corner h)) by (intros h L NE; destruct (A6 h L NE); auto).
  assert (NI : forall h, liveH m h -> ~ ext m h -> liveH m (nx m h) /\ ~ ext m (nx m h)). { intros h L NE. split; [apply (cn_nx _ CN); auto|]. unfold ext in *. rewrite (cn_fnx _ CN); auto. }
  constructor.
  - intros v. split.
    + intros L. destruct (rn_vs _ _ RN v L) as (w & Lw & <-). apply A1 in Lw. destruct Lw as [(u & L' & ->)|[(e & L' & ->)|(f & L' & ->)]]; eauto 6.
    + intros [(u & L & ->)|[(e & L & ->)|(f & L & ->)]]; apply (rn_v _ _ RN); auto.
  - intros u w Lu Lw K. apply A2; auto.
  - intros u w Lu Lw K. apply A3; auto.
  - intros u w Lu Lw K. apply A4; auto.
  - intros u e f Lu Le Lf. destruct (A5 u e f Lu Le Lf) as (B1 & B2 & B3). repeat split; intros K; [apply B1|apply B2|apply B3]; auto.
  - intros h L NE k. unfold k. destruct (A6 h L NE) as (B1 & B2 & B3 & B4 & B5 & B6 & B7). set (c := corner h) in *. assert (L1 := NXG _ B1). assert (L2 := NXG _ L1). assert (L3 := NXG _ L2).
    rewrite !(rn_nx _ _ RN) by auto. rewrite !(rn_ve _ _ RN) by auto. rewrite EX by auto. split; [apply (rn_h _ _ RN); auto|]. split; [auto|]. split; [congruence|]. split; [congruence|]. split; [congruence|]. split; [congruence|]. intros p Lp Ep. rewrite (B7 p) by auto. auto.
  - intros x L NE. destruct (rn_hs _ _ RN x L) as (y & Ly & <-). rewrite EX in NE by auto. destruct (A7 y Ly NE) as (h & Lh & Nh & K). exists h. split; auto. split; auto. assert (L0 := LK h Lh Nh). assert (L1 := NXG _ L0). assert (L2 := NXG _ L1). rewrite !(rn_nx _ _ RN) by auto. destruct K as [->|[->|[->| ->]]]; auto.
  - intros h k Lh Lk Nh Nk. destruct (A8 h k Lh Lk Nh Nk) as (B1 & B2 & B3 & B4). assert (L0 := LK k Lk Nk). assert (L1 := NXG _ L0). assert (L2 := NXG _ L1). assert (L3 := NXG _ L2). assert (LKh := LK h Lh Nh). rewrite !(rn_nx _ _ RN) by auto. split; [intros K; apply B1, IH; auto|]. repeat split; intros K; apply IH in K; auto.
  - intros h L NE. destruct (NI h L NE) as [L' N']. assert (L0 := LK h L NE). assert (L1 := NXG _ L0). assert (K0 := LK _ L' N'). assert (K1 := NXG _ K0). rewrite !(rn_nx _ _ RN) by auto. rewrite (rn_tw _ _ RN) by auto. rewrite A9; auto.
  - intros h L NE NT. assert (Lt : liveH m (tw h)) by (apply (cn_tw _ CN); auto). destruct (NI _ Lt NT) as [L' N']. assert (L0 := LK h L NE). assert (K0 := LK _ L' N'). assert (K1 := NXG _ K0). assert (K2 := NXG _ K1). rewrite !(rn_nx _ _ RN) by auto. rewrite (rn_tw _ _ RN) by auto. rewrite A10; auto.
  - intros h L NE NT. assert (L0 := LK h L NE). rewrite (rn_tw _ _ RN) by auto. apply EX; [apply (cn_tw _ CG); auto|]. auto.
Qed.
