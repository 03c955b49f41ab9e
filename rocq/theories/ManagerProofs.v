(** Proofs about the MutationManager *)
From Coq Require Import Reals.
From Verif Require Import Base MeshModel MeshModel2 MeshSpec MeshOpSpec MeshBase MeshOrbit MeshExec MeshFlip MeshThms MeshSplit MeshInsertVertex MeshAlloc
  DataModel MeshDataModel MeshEvents MeshHistoryModel MeshHistorySpec MeshHistory CollapseSpec CollapseTop CollapseKeep CollapseEvents GeoModel CollapseModel ManagerModel ManagerSpec.
Open Scope Z_scope.

Lemma alive_In g p : In p (gAll g) -> alive g p = true.
Proof. intros H. unfold alive. apply existsb_exists. exists p. split; [auto|apply Z.eqb_refl]. Qed.
Lemma callAll_ok ps ev : forall g, (forall p, In p ps -> In p (gAll g)) -> callAll g ps ev = Ok (withLog g (gLog g ++ map ev ps)).
Proof.
  unfold callAll. induction ps as [|p t IH]; intros g H; cbn [foldM map].
  - rewrite app_nil_r. destruct g; reflexivity.
  - unfold call at 1. rewrite alive_In by (apply H; left; auto). cbn [bind]. rewrite IH by (intros q Hq; apply H; right; auto).
    cbn [gLog withLog]. rewrite <- app_assoc. reflexivity.
Qed.

(** ** containers *)
Lemma dataAt_ex {T} m k (d : mdata T) i : Valid m -> Fits m k d -> liveE m k i -> exists x, dataAt d i = Ok x.
Proof.
  intros V F L. pose proof (liveE_use m k i V L). pose proof (fits_use m k d V F). destruct (nth_error (dat d) (Z.to_nat i)) as [x|] eqn:E.
  - exists x. apply dataAt_nth; [lia|auto].
  - apply nth_error_None in E. lia.
Qed.
Lemma says_allows c i x : says c i x <-> allows c i = Ok x.
Proof. destruct c; cbn; [tauto|]. split; [intros ->; auto|intros [=]; auto]. Qed.
Lemma allows_ex m k c i : Valid m -> fitsO m k c -> liveE m k i -> exists x, allows c i = Ok x.
Proof. intros V F L. destruct c as [d|]; cbn in *; [|eauto]. eapply dataAt_ex; eauto. Qed.
Lemma says_fun c i x y : says c i x -> says c i y -> x = y.
Proof. rewrite !says_allows. congruence. Qed.

Definition putMesh (g : mgr) m' := mkMgr m' (gPos g) (gRepos g) (gSplit g) (gColl g) (gFlip g) (gSplitF g) (gAll g) (pRepos g) (pFlip g) (pSplit g) (pColl g) (pFace g) (gCache g) (gLog g).
Lemma issued_shape m m' : shape m' = shape m -> issued m m' = [].
Proof. intros E. apply (f_equal (fun x => fst (fst (fst (fst (fst x)))))) in E. cbn in E. unfold issued. rewrite E, Nat.sub_diag. reflexivity. Qed.
Lemma withMesh_shape g m' : shape m' = shape (gMesh g) -> withMesh g m' = Ok (putMesh g m').
Proof.
  intros E. apply issued_shape in E. unfold withMesh, followO, follow. rewrite E. cbn [receives foldM].
  destruct g as [m [?|] [?|] [?|] [?|] [?|] [?|] a1 a2 a3 a4 a5 a6 cc l]; reflexivity.
Qed.
Lemma fits_shape {T} m m' k (d : mdata T) : shape m' = shape m -> Fits m k d -> Fits m' k d.
Proof.
  unfold shape, fills. intros E [S1 S2 S3]. injection E as _ E2 E3 E4 E5 E6 E7 E8 E9 E10. split.
  - unfold capacity, maxSize in *. rewrite E2, E3, E4, E5, E9, E10. exact S1.
  - unfold fillOf in *. rewrite E6, E7, E8, E9, E10. exact S2.
  - lia.
Qed.
Lemma fitsO_shape {T} m m' k (c : option (mdata T)) : shape m' = shape m -> fitsO m k c -> fitsO m' k c.
Proof. destruct c; cbn; auto. apply fits_shape. Qed.

(** the mesh changed by one legal operation *)
Lemma followO_ok {T} m o m' k (c : option (mdata T)) : Start m -> OpPre m o -> o <> OCompress -> applyOp m o = Ok m' -> fitsO m k c ->
  exists c', followO k m m' c = Ok c' /\ fitsO m' k c' /\ kept m k c c'.
Proof.
  intros S P N E F. destruct c as [d|]; [|exists None; cbn; auto].
  destruct (mutation_data T m o k d S P N F) as (m2 & d' & E2 & _ & F' & _ & K & _). cbn [applyD] in E2. rewrite E in E2. cbn [bind] in E2.
  unfold followO. destruct (follow k m m' d) as [d2| |]; try discriminate. cbn [bind] in *. injection E2 as <- <-. exists (Some d2). split; [reflexivity|]. split; [exact F'|exact K].
Qed.
Record Moved (g g' : mgr) (m' : mesh) : Prop := {
  mv_mesh : gMesh g' = m'; mv_pol : samePolicies g g'; mv_log : gLog g' = gLog g; mv_cache : gCache g' = gCache g;
  mv_pos : kept (gMesh g) EVertex (gPos g) (gPos g'); mv_repos : kept (gMesh g) EVertex (gRepos g) (gRepos g');
  mv_split : kept (gMesh g) EEdge (gSplit g) (gSplit g'); mv_coll : kept (gMesh g) EEdge (gColl g) (gColl g');
  mv_flip : kept (gMesh g) EEdge (gFlip g) (gFlip g'); mv_splitF : kept (gMesh g) EFace (gSplitF g) (gSplitF g') }.
Lemma withMesh_ok g o m' : Good g -> OpPre (gMesh g) o -> o <> OCompress -> applyOp (gMesh g) o = Ok m' ->
  exists g', withMesh g m' = Ok g' /\ Moved g g' m' /\ Good g'.
Proof.
  intros G P N E. destruct (start_step _ o (gd_start _ G) P) as (m2 & E2 & S' & _). assert (m2 = m') by congruence. subst m2. clear E2.
  destruct G as [S G1 G2 G3 G4 G5 G6 G7 G8].
  destruct (followO_ok _ o m' _ _ S P N E G1) as (c1 & E1 & F1 & K1). destruct (followO_ok _ o m' _ _ S P N E G2) as (c2 & E2 & F2 & K2).
  destruct (followO_ok _ o m' _ _ S P N E G3) as (c3 & E3 & F3 & K3). destruct (followO_ok _ o m' _ _ S P N E G4) as (c4 & E4 & F4 & K4).
  destruct (followO_ok _ o m' _ _ S P N E G5) as (c5 & E5 & F5 & K5). destruct (followO_ok _ o m' _ _ S P N E G6) as (c6 & E6 & F6 & K6).
  unfold withMesh. rewrite E1, E2, E3, E4, E5, E6. cbn [bind]. eexists. split; [reflexivity|]. split; split; cbn; auto. repeat split.
Qed.

(** ** flipping *)
Lemma joined_sym m v w : Valid m -> joined m v w -> joined m w v.
Proof. intros V (h & L & E1 & E2). exists (tw h). split; [apply V; auto|]. rewrite tw_tw. auto. Qed.

Lemma joined_dec m v w : Valid m -> joined m v w \/ ~ joined m v w.
Proof.
  intros V. destruct (existsb (fun h => negb (nx m h =? -1) && (ve m h =? v) && (ve m (tw h) =? w)) (zseq (heFill m))) eqn:E.
  - left. apply existsb_exists in E as (h & I & E). apply zseq_In in I. exists h. unfold liveH. lia.
  - right. intros (h & [L1 L2] & E1 & E2). apply Bool.not_true_iff_false in E. apply E. apply existsb_exists. exists h. split; [apply zseq_In; auto|]. lia.
Qed.
Lemma same_trans a b c : same_elements a b -> same_elements b c -> same_elements a c.
Proof. intros (A1 & A2 & A3) (B1 & B2 & B3). split; [|split]; intros x; [rewrite B1; apply A1|rewrite B2; apply A2|rewrite B3; apply A3]. Qed.
Lemma flip_start m e p m' b : Start m -> OpPre m (OFlip e p) -> flip m e p = Ok (m', b) -> Start m'.
Proof. intros S P E. destruct (start_step m (OFlip e p) S P) as (m2 & E2 & S' & _). cbn [applyOp] in E2. rewrite E in E2. cbn [bind] in E2. injection E2 as <-. exact S'. Qed.

Lemma flip_edge_ok g e : Good g -> OpPre (gMesh g) (OFlip e true) ->
  let m := gMesh g in let a := eHe e in let b := tw a in let c := ve m (nx m (nx m a)) in let d := ve m (nx m (nx m b)) in
  exists g' ok, flipEdge g e = Ok (g', ok) /\ Good g' /\
    (ok = true <-> ~ forbids (gFlip g) e /\ flippable m a /\ ~ joined m c d) /\
    (ok = false -> g' = g) /\
    (ok = true -> let m' := gMesh g' in
      counts m' = counts m /\ same_elements m m' /\
      (ve m' a = c /\ ve m' b = d \/ ve m' a = d /\ ve m' b = c) /\ (forall h, h <> a -> h <> b -> ve m' h = ve m h) /\
      flippable m' a /\ samePolicies g g' /\ sameData g g' /\
      exists mb, gLog g' = gLog g ++ map (fun p => BeforeFlip p e mb) (pFlip g) ++ map (fun p => AfterFlip p e m') (pFlip g) /\
        (~ parallel m e -> Valid mb /\ ve mb a = ve m b /\ ve mb b = ve m a /\ (forall h, h <> a -> h <> b -> ve mb h = ve m h)) /\
        (parallel m e -> mb = m')).
Proof.
  intros G (L & Ma & Mb) m a b c d. pose proof (gd_start _ G) as S. pose proof (sr_valid _ S) as V. fold m a in L, Ma. fold m a b in Mb. fold m in V, S.
  pose proof (va_cn _ V) as CN. assert (Lb : liveH m b) by (apply CN; auto).
  destruct (allows_ex m EEdge (gFlip g) e V (gd_flip _ G) L) as (x & Ex). unfold flipEdge, mayFlipEdge. rewrite Ex. cbn [bind].
  destruct x; cbn [negb]; [|exists g, false; split; [reflexivity|]; split; [auto|]; split; [split; [discriminate|intros (K & _); exfalso; apply K, says_allows; auto]|split; [auto|discriminate]]].
  assert (NF : ~ forbids (gFlip g) e) by (intros K; apply says_allows in K; congruence).
  fold m. destruct (flip_spec m e true V L Ma Mb) as (m1 & ok1 & E1 & V1 & O1 & R1 & T1). fold a b in O1, T1. fold c d in O1, T1. rewrite E1. cbn [bind].
  pose proof (shape_flip _ _ _ _ _ E1) as Sh1. rewrite (withMesh_shape g m1) by exact Sh1. cbn [bind].
  destruct ok1; cbn [negb].
  2:{ rewrite (R1 eq_refl). exists g, false. split; [destruct g; reflexivity|]. split; [auto|]. split; [split; [discriminate|intros (_ & K1 & K2); apply O1; auto]|split; [auto|discriminate]]. }
  destruct (proj1 O1 eq_refl) as [Fl NJ]. specialize (NJ eq_refl).
  destruct (T1 eq_refl) as (C1 & SE1 & Va1 & Vb1 & Vo1 & _ & Na1 & Na1' & _ & Nb1 & Nb1' & _ & Fl1).
  assert (L1 : liveH m1 a) by (apply SE1; auto). pose proof (va_cn _ V1) as CN1. assert (L1b : liveH m1 b) by (apply CN1; auto).
  assert (Dab : a <> b) by (unfold b; apply not_eq_sym, tw_neq).
  assert (Q : FlipPre m a) by (apply flippable_pre; auto). pose proof (flip_six m e V Q) as FS. fold a in FS. fold b in FS.
  destruct FS as (_ & D1 & D2 & D3 & D4 & D5 & D6 & D7 & D8 & D9 & D10 & D11 & D12 & D13 & D14 & D15).
  assert (P1 : nx m1 a <> a /\ nx m1 b <> b). { destruct Fl1 as (_ & (_ & _ & K1) & (_ & _ & K2) & _). auto. }
  assert (X1 : ve m1 (nx m1 (nx m1 a)) = ve m b). { rewrite Na1'. rewrite Vo1 by auto. apply (cn_vnx _ CN); auto. }
  assert (X2 : ve m1 (nx m1 (nx m1 b)) = ve m a). { rewrite Nb1'. rewrite Vo1 by auto. rewrite (cn_vnx _ CN) by auto. unfold b. rewrite tw_tw. auto. }
  destruct (flip_spec m1 e true V1 L1 (proj1 P1) (proj2 P1)) as (m2 & ok2 & E2 & V2 & O2 & R2 & T2). fold a b in O2, T2. rewrite E2. cbn [bind].
  pose proof (shape_flip _ _ _ _ _ E2) as Sh2. rewrite (withMesh_shape (putMesh g m1) m2) by exact Sh2. cbn [bind].
  rewrite callAll_ok by (intros p Hp; cbn in *; apply (gd_alive _ G); rewrite !in_app_iff; tauto). cbn [bind].
  assert (PAR : parallel m e <-> joined m1 (ve m b) (ve m a)).
  { split.
    - intros (h & K1 & K2 & K3 & K4). fold a in K3, K4. fold b in K4. assert (N1 : h <> a) by (intros ->; apply K2; unfold a; apply edge_eHe). assert (N2 : h <> b) by (intros ->; apply K2; unfold b; rewrite <- (edge_eHe e); apply edge_eq; auto).
      assert (N3 : tw h <> a) by (intros K; apply N2; unfold b; rewrite <- K, tw_tw; auto). assert (N4 : tw h <> b) by (intros K; apply N1; apply tw_inj; exact K).
      exists (tw h). split; [apply CN1, SE1; auto|]. rewrite tw_tw, !Vo1 by auto. auto.
    - intros (h & K1 & K3 & K4). destruct (Z.eq_dec h a) as [->|N1]; [|destruct (Z.eq_dec h b) as [->|N2]].
      + exfalso. apply NJ. exists b. split; auto. fold b in K4. rewrite Va1 in K3. rewrite Vb1 in K4. unfold b at 2. rewrite tw_tw. unfold c, d. auto.
      + exfalso. apply NJ. exists a. split; auto. fold b. unfold b in K4 at 1. rewrite tw_tw in K4. rewrite Vb1 in K3. rewrite Va1 in K4. unfold c, d. auto.
      + assert (N3 : tw h <> a) by (intros K; apply N2; unfold b; rewrite <- K, tw_tw; auto). assert (N4 : tw h <> b) by (intros K; apply N1; apply tw_inj; exact K).
        rewrite !Vo1 in K3, K4 by auto. assert (Lh : liveH m h) by (apply SE1; auto). exists (tw h). split; [apply CN; auto|]. rewrite tw_tw. split; [|fold a; fold b; auto].
        intros K. rewrite <- (edge_eHe e) in K. apply edge_eq in K as [K|K]; fold a in K; [auto|apply N4; auto]. }
  assert (S1 : Start m1) by (apply (flip_start m e true m1 true S); [split; auto|exact E1]).
  assert (S2 : Start m2) by (apply (flip_start m1 e true m2 ok2 S1); [split; tauto|exact E2]).
  assert (FIN : forall m3, Start m3 -> shape m3 = shape m -> Good (withLog (putMesh g m3) (gLog g ++ map (fun p => BeforeFlip p e m2) (pFlip g) ++ map (fun p => AfterFlip p e m3) (pFlip g)))).
  { intros m3 S3 Sh. destruct G as [_ G1 G2 G3 G4 G5 G6 G7 G8]. split; cbn; auto; try (eapply fitsO_shape; [exact Sh|auto]). }
  assert (YES : true = true <-> ~ forbids (gFlip g) e /\ flippable m a /\ ~ joined m c d) by tauto.
  destruct ok2.
  - (* undone *)
    destruct (proj1 O2 eq_refl) as [_ NP]. specialize (NP eq_refl). rewrite X1, X2 in NP.
    destruct (T2 eq_refl) as (C2 & SE2 & Va2 & Vb2 & Vo2 & _ & Na2 & Na2' & _ & Nb2 & Nb2' & _ & Fl2). rewrite X1 in Va2. rewrite X2 in Vb2.
    assert (L2 : liveH m2 a) by (apply SE2; auto). pose proof (va_cn _ V2) as CN2. assert (L2b : liveH m2 b) by (apply CN2; auto).
    assert (P2 : nx m2 a <> a /\ nx m2 b <> b). { destruct Fl2 as (_ & (_ & _ & K1) & (_ & _ & K2) & _). auto. }
    assert (Y1 : ve m2 (nx m2 (nx m2 a)) = d). { rewrite Na2', Na1. rewrite Vo2, Vo1 by auto. reflexivity. }
    assert (Y2 : ve m2 (nx m2 (nx m2 b)) = c). { rewrite Nb2', Nb1. rewrite Vo2, Vo1 by auto. reflexivity. }
    assert (Vo : forall h, h <> a -> h <> b -> ve m2 h = ve m h) by (intros h N1 N2; rewrite Vo2, Vo1; auto).
    destruct (flip_spec m2 e true V2 L2 (proj1 P2) (proj2 P2)) as (m3 & ok3 & E3 & V3 & O3 & R3 & T3). fold a b in O3, T3. rewrite E3. cbn [bind].
    assert (ok3 = true).
    { apply O3. split; auto. intros _. rewrite Y1, Y2. intros (h & K1 & K3 & K4). apply NJ. destruct (Z.eq_dec h a) as [->|N1]; [|destruct (Z.eq_dec h b) as [->|N2]].
      - fold b in K4. exists a. split; auto. fold b. split; congruence.
      - unfold b in K4 at 1. rewrite tw_tw in K4. exists b. split; auto. unfold b at 2. rewrite tw_tw. split; congruence.
      - assert (N3 : tw h <> a) by (intros K; apply N2; unfold b; rewrite <- K, tw_tw; auto). assert (N4 : tw h <> b) by (intros K; apply N1; apply tw_inj; exact K).
        rewrite Vo in K3, K4 by auto. exists (tw h). split; [apply CN, SE1, SE2; auto|]. rewrite tw_tw. auto. }
    subst ok3. destruct (T3 eq_refl) as (C3 & SE3 & Va3 & Vb3 & Vo3 & _ & _ & _ & _ & _ & _ & _ & Fl3).
    pose proof (shape_flip _ _ _ _ _ E3) as Sh3. assert (Sh : shape m3 = shape m) by congruence.
    rewrite (withMesh_shape (withLog _ _) m3) by exact Sh3. cbn [bind].
    rewrite callAll_ok by (intros p Hp; cbn in *; apply (gd_alive _ G); rewrite !in_app_iff; tauto). cbn [bind].
    do 2 eexists. split; [reflexivity|]. cbn [gLog pFlip withLog putMesh gMesh]. rewrite <- app_assoc.
    split; [apply FIN; [apply (flip_start m2 e true m3 true S2); [split; tauto|exact E3]|exact Sh]|]. split; [exact YES|]. split; [discriminate|]. intros _. cbv zeta. cbn [gMesh withLog putMesh gLog pFlip].
    split; [congruence|]. split; [eapply same_trans; [exact SE1|eapply same_trans; [exact SE2|exact SE3]]|].
    split; [right; rewrite Va3, Vb3; auto|]. split; [intros h N1 N2; rewrite Vo3, Vo by auto; reflexivity|]. split; [exact Fl3|]. split; [repeat split|]. split; [repeat split|].
    exists m2. split; [reflexivity|]. split; [intros _; auto|]. intros K. apply PAR in K. contradiction.
  - (* the undo is refused *)
    pose proof (R2 eq_refl) as ->. rewrite E2. cbn [bind]. rewrite (withMesh_shape (withLog _ _) m1) by reflexivity. cbn [bind].
    rewrite callAll_ok by (intros p Hp; cbn in *; apply (gd_alive _ G); rewrite !in_app_iff; tauto). cbn [bind].
    assert (K : joined m1 (ve m b) (ve m a)).
    { destruct (joined_dec m1 (ve m b) (ve m a) V1) as [K|K]; [auto|]. exfalso. assert (false = true); [|discriminate]. apply O2. split; auto. intros _. rewrite X1, X2. auto. }
    do 2 eexists. split; [reflexivity|]. cbn [gLog pFlip withLog putMesh gMesh]. rewrite <- app_assoc.
    split; [apply FIN; [exact S1|exact Sh1]|]. split; [exact YES|]. split; [discriminate|]. intros _. cbv zeta. cbn [gMesh withLog putMesh gLog pFlip].
    split; [congruence|]. split; [exact SE1|]. split; [left; auto|]. split; [exact Vo1|]. split; [exact Fl1|]. split; [repeat split|]. split; [repeat split|].
    exists m1. split; [reflexivity|]. split; [|auto]. intros N. exfalso. apply N, PAR, K.
Qed.

(** ** splitting an edge *)
Lemma mayCollapse_ok g e : Good g -> liveH (gMesh g) (eHe e) -> exists c, mayCollapseEdge g e = Ok c /\ (c = true <-> collapseOk g e).
Proof.
  intros G L. pose proof (sr_valid _ (gd_start _ G)) as V. pose proof (va_cn _ V) as CN. set (m := gMesh g) in *.
  destruct (allows_ex m EEdge (gColl g) e V (gd_coll _ G) L) as (x & Ex). unfold mayCollapseEdge. rewrite Ex. cbn [bind]. fold m. unfold collapseOk. fold m.
  destruct x; cbn [negb].
  2:{ exists false. split; auto. split; [discriminate|]. intros (K & _). apply says_allows in K. congruence. }
  apply says_allows in Ex. assert (LV : liveV m (ve m (eHe e))) by (apply CN; auto). assert (LW : liveV m (ve m (tw (eHe e)))) by (apply CN, CN; auto).
  assert (RV : vertexOf m (eHe e) = Ok (ve m (eHe e))) by (apply vertexOf_ok; pose proof (st_vert _ (va_st _ V)); pose proof (st_he _ (va_st _ V)); destruct L; lia).
  assert (RW : vertexOf m (tw (eHe e)) = Ok (ve m (tw (eHe e)))) by (apply vertexOf_ok; pose proof (st_vert _ (va_st _ V)); pose proof (st_he _ (va_st _ V)); destruct (cn_tw _ CN _ L); lia).
  pose proof (gd_repos _ G) as F. fold m in F. destruct (gRepos g) as [d|]; cbn [fitsO says] in *.
  - destruct (dataAt_ex m EVertex d _ V F LV) as (y & Ey). destruct (dataAt_ex m EVertex d _ V F LW) as (z & Ez). rewrite RV. cbn [bind]. rewrite Ey. cbn [bind].
    destruct y; cbn [negb bind]; [|exists false; split; [auto|]; split; [discriminate|intros (_ & K & _); congruence]].
    rewrite RW. cbn [bind]. rewrite Ez. cbn [bind]. destruct z; cbn [negb bind]; [|exists false; split; [auto|]; split; [discriminate|intros (_ & _ & K); congruence]].
    exists true. split; [reflexivity|]. split; auto.
  - cbn [bind negb]. exists true. split; [reflexivity|]. split; auto.
Qed.

Lemma before_ok e t s c f ps : forall g, (forall p, In p ps -> In p (gAll g)) -> maySplitEdge g e = Ok s -> mayCollapseEdge g e = Ok c -> mayFlipEdge g e = Ok f ->
  exists k, foldM (fun g p => callBeforeSplit g e t p) ps g = Ok (withCache (withLog g (gLog g ++ map (fun p => BeforeSplit p e t (gMesh g)) (users ps))) k) /\
    (gCache g = (s, c, f) \/ In 0 ps -> k = (s, c, f)).
Proof.
  induction ps as [|p ps IH]; intros g A E1 E2 E3; cbn [foldM users filter map].
  - exists (gCache g). split; [rewrite app_nil_r; destruct g; reflexivity|]. intros [K|[]]; auto.
  - unfold callBeforeSplit at 1. destruct (Z.eqb_spec p 0) as [->|N]; cbn [negb].
    + rewrite alive_In by (apply A; left; auto). rewrite E1. cbn [bind]. rewrite E2. cbn [bind]. rewrite E3. cbn [bind].
      destruct (IH (withCache g (s, c, f))) as (k & E & K); auto. { intros q Hq. apply A. right. auto. }
      exists k. split; [rewrite E; reflexivity|]. intros _. apply K. left. reflexivity.
    + unfold call. rewrite alive_In by (apply A; left; auto). cbn [bind].
      destruct (IH (withLog g (gLog g ++ [BeforeSplit p e t (gMesh g)]))) as (k & E & K); auto. { intros q Hq. apply A. right. auto. }
      exists k. split.
      * rewrite E. cbn [gLog withLog]. rewrite <- app_assoc. reflexivity.
      * intros [H|[H|H]]; [|contradiction|]; apply K; auto.
Qed.

Definition wrote (e1 e2 : Z) (x : bool) (c c' : option (mdata bool)) : Prop :=
  match c, c' with
  | None, None => True
  | Some d, Some d' => dataAt d' e1 = Ok x /\ dataAt d' e2 = Ok x /\ forall j, 0 <= j -> j <> e1 -> j <> e2 -> dataAt d' j = dataAt d j
  | _, _ => False
  end.
Lemma setBoth_ok m c e1 e2 x : Valid m -> fitsO m EEdge c -> 0 <= e1 < eFill m -> 0 <= e2 < eFill m ->
  exists c', setBoth c e1 e2 x = Ok c' /\ fitsO m EEdge c' /\ wrote e1 e2 x c c'.
Proof.
  intros V F H1 H2. destruct c as [d|]; cbn [setBoth]; [|exists None; cbn; auto].
  destruct (fits_write _ m EEdge d e1 x V F H1) as (d1 & E1 & F1 & _ & A1 & B1). destruct (fits_write _ m EEdge d1 e2 x V F1 H2) as (d2 & E2 & F2 & _ & A2 & B2).
  rewrite E1. cbn [bind]. rewrite E2. cbn [bind]. exists (Some d2). split; [reflexivity|]. split; [exact F2|]. cbn. split; [|split].
  - destruct (Z.eq_dec e1 e2) as [<-|N]; [exact A2|rewrite B2 by (auto; lia); exact A1].
  - exact A2.
  - intros j J N1 N2. rewrite B2, B1; auto.
Qed.
Lemma wrote_again e1 e2 x c c' c'' : wrote e1 e2 x c c' -> wrote e1 e2 x c' c'' -> wrote e1 e2 x c c''.
Proof. destruct c, c', c''; cbn; try tauto. intros (A & B & C) (D & E & F). split; [auto|]. split; [auto|]. intros j J N1 N2. rewrite F, C; auto. Qed.
Lemma after_ok h1 h2 t s c f ps : forall g, (forall p, In p ps -> In p (gAll g)) -> gCache g = (s, c, f) -> Valid (gMesh g) ->
  fitsO (gMesh g) EEdge (gSplit g) -> fitsO (gMesh g) EEdge (gColl g) -> fitsO (gMesh g) EEdge (gFlip g) ->
  0 <= edge h1 < eFill (gMesh g) -> 0 <= edge h2 < eFill (gMesh g) ->
  exists s' c' f', foldM (fun g p => callAfterSplit g h1 h2 t p) ps g =
      Ok (withEdges (withLog g (gLog g ++ map (fun p => AfterSplit p h1 h2 t (gMesh g)) (users ps))) s' c' f') /\
    fitsO (gMesh g) EEdge s' /\ fitsO (gMesh g) EEdge c' /\ fitsO (gMesh g) EEdge f' /\
    (~ In 0 ps -> s' = gSplit g /\ c' = gColl g /\ f' = gFlip g) /\
    (In 0 ps -> wrote (edge h1) (edge h2) s (gSplit g) s' /\ wrote (edge h1) (edge h2) c (gColl g) c' /\ wrote (edge h1) (edge h2) f (gFlip g) f').
Proof.
  induction ps as [|p ps IH]; intros g A EC V F1 F2 F3 R1 R2; cbn [foldM users filter map].
  - exists (gSplit g), (gColl g), (gFlip g). split; [rewrite app_nil_r; destruct g; reflexivity|]. split; [auto|]. split; [auto|]. split; [auto|]. split; [auto|intros []].
  - unfold callAfterSplit at 1. destruct (Z.eqb_spec p 0) as [->|N]; cbn [negb].
    + rewrite alive_In by (apply A; left; auto). rewrite EC.
      destruct (setBoth_ok _ _ _ _ s V F1 R1 R2) as (s1 & E1 & G1 & W1). destruct (setBoth_ok _ _ _ _ c V F2 R1 R2) as (c1 & E2 & G2 & W2). destruct (setBoth_ok _ _ _ _ f V F3 R1 R2) as (f1 & E3 & G3 & W3).
      rewrite E1. cbn [bind]. rewrite E2. cbn [bind]. rewrite E3. cbn [bind].
      destruct (IH (withEdges g s1 c1 f1)) as (s' & c' & f' & E & Q1 & Q2 & Q3 & NI & I); auto. { intros q Hq. apply A. right. auto. }
      exists s', c', f'. split; [rewrite E; reflexivity|]. split; [auto|]. split; [auto|]. split; [auto|]. split; [intros K; exfalso; apply K; left; auto|]. intros _.
      destruct (in_dec Z.eq_dec 0 ps) as [J|J].
      * destruct (I J) as (I1 & I2 & I3). cbn in I1, I2, I3. split; [|split]; eapply wrote_again; eauto.
      * destruct (NI J) as (-> & -> & ->). cbn. auto.
    + unfold call. rewrite alive_In by (apply A; left; auto). cbn [bind].
      destruct (IH (withLog g (gLog g ++ [AfterSplit p h1 h2 t (gMesh g)]))) as (s' & c' & f' & E & Q1 & Q2 & Q3 & NI & I); auto. { intros q Hq. apply A. right. auto. }
      exists s', c', f'. split; [rewrite E; cbn [gLog withLog]; rewrite <- app_assoc; reflexivity|]. split; [auto|]. split; [auto|]. split; [auto|]. cbn [gSplit gColl gFlip withLog] in *.
      split; [intros K; apply NI; intros J; apply K; right; auto|]. intros [J|J]; [contradiction|auto].
Qed.

Lemma setPos_ok g v x : Good g -> liveV (gMesh g) v -> exists d, setPos g v x = Ok (withPos g d) /\ fitsO (gMesh g) EVertex d /\
  match gPos g, d with None, None => True | Some d0, Some d1 => dataAt d1 v = Ok x /\ forall j, 0 <= j -> j <> v -> dataAt d1 j = dataAt d0 j | _, _ => False end.
Proof.
  intros G L. pose proof (sr_valid _ (gd_start _ G)) as V. unfold setPos. pose proof (gd_pos _ G) as F. destruct (gPos g) as [d|] eqn:E; cbn [fitsO] in F.
  - destruct (fits_write _ _ EVertex d v x V F) as (d1 & E1 & F1 & _ & A & B). { cbn [fillOf]. destruct L; auto. } rewrite E1. cbn [bind]. exists (Some d1). auto.
  - exists None. split; [f_equal; destruct g; cbn in *; subst; reflexivity|]. split; cbn; auto.
Qed.

(** what a split does to the manager *)
Lemma prev_is m p h : Valid m -> liveH m p -> nx m p = h -> prevOrbitFace m h = Ok p.
Proof.
  intros V L E. pose proof (va_cn _ V) as CN. assert (Lh : liveH m h) by (rewrite <- E; apply CN; auto).
  destruct (prev_ok m V h Lh) as (q & Lq & Eq & _ & _ & Q). assert (q = p) by (apply (cn_inj _ CN); auto; congruence). subst q. apply Q.
  - intros x Lx. apply next_live; auto.
  - pose proof (st_next _ (va_st _ V)). pose proof (st_he _ (va_st _ V)). lia.
Qed.
Lemma kept_wrote m e1 e2 x c c1 c2 : Valid m -> kept m EEdge c c1 -> wrote e1 e2 x c1 c2 -> (e2 < 0 \/ eFill m <= e2) -> keptBut [e1] m EEdge c c2.
Proof.
  intros V. destruct c, c1, c2; cbn; try tauto. intros K (A & B & C) N i L NI. pose proof (liveE_use m EEdge i V L) as U. cbn [fillOf] in U. rewrite C; auto; try lia.
Qed.
Lemma kept_wrote_same m e1 e2 x c c1 c2 : Valid m -> liveH m (eHe e1) -> kept m EEdge c c1 -> wrote e1 e2 x c1 c2 -> (e2 < 0 \/ eFill m <= e2) -> says c e1 x -> keptBut [] m EEdge c c2.
Proof.
  intros V L1 K W N S. pose proof (kept_wrote m e1 e2 x c c1 c2 V K W N) as Q. destruct c as [d|], c1 as [d1|], c2 as [d2|]; cbn in *; try tauto. intros i L _.
  destruct (Z.eq_dec i e1) as [->|N1]; [destruct W; congruence|]. apply Q; auto. intros [Q2|[]]; congruence.
Qed.
Lemma liveE_edge m e : liveE m EEdge e = liveH m (eHe e). Proof. reflexivity. Qed.

Lemma split_edge_ok g e t x : Good g -> OpPre (gMesh g) (OSplit e) ->
  let m := gMesh g in
  exists r, splitEdge g e t x = Ok r /\
   (forbids (gSplit g) e -> r = (g, None)) /\
   (~ forbids (gSplit g) e -> exists g' c, r = (g', Some (eHe e)) /\ splitEdgeTriangular m e = Ok (gMesh g', eHe e) /\
     SplitDone g g' e (vFill m) x c /\
     gLog g' = gLog g ++ map (fun p => BeforeSplit p e t m) (users (pSplit g)) ++ map (fun p => AfterSplit p (eHe e) (tw (eHe (eFill m))) t (gMesh g')) (users (pSplit g))).
Proof.
  intros G P m. pose proof P as (TR & L & N1 & N2). pose proof (gd_start _ G) as S. pose proof (sr_valid _ S) as V. fold m in V, S, L, TR, N1, N2, P.
  destruct (allows_ex m EEdge (gSplit g) e V (gd_split _ G) L) as (s & Es). destruct (allows_ex m EEdge (gFlip g) e V (gd_flip _ G) L) as (f & Ef). destruct (mayCollapse_ok g e G L) as (c & Ec & Hc).
  unfold splitEdge, maySplitEdge. rewrite Es. cbn [bind].
  destruct s; cbn [negb]; [|exists (g, None); split; [reflexivity|]; split; [auto|]; intros K; exfalso; apply K, says_allows; auto].
  assert (NF : ~ forbids (gSplit g) e) by (intros K; apply says_allows in K; congruence).
  destruct (before_ok e t true c f (pSplit g) g) as (k & B & Hk); auto. { intros p Hp. apply (gd_alive _ G). rewrite !in_app_iff. tauto. }
  rewrite Hk in B by (right; apply G). clear k Hk. rewrite B. cbn [bind]. cbn [gMesh withCache withLog]. fold m.
  destruct (split_spec m e V (sr_loops _ S) TR L N1 N2) as (m' & E & V' & ND' & TR' & _ & _ & LV & NV & _ & Va & _ & _ & _ & _ & T1 & T2 & _ & _ & (_ & _ & K3 & _ & _ & K6) & X1 & X2 & _).
  set (a := eHe e) in *. rewrite E. cbn [bind].
  set (g1 := withCache _ _). assert (G1 : Good g1) by (destruct G; split; auto).
  destruct (withMesh_ok g1 (OSplit e) m' G1 P) as (g2 & E2 & M2 & G2); [discriminate|cbn [applyOp]; change (gMesh g1) with m; rewrite E; reflexivity|].
  rewrite E2. cbn [bind]. destruct M2 as [M1 M2 M3 M4 M5 M6 M7 M8 M9 M10]. change (gMesh g1) with m in *. change (gPos g1) with (gPos g) in M5. change (gRepos g1) with (gRepos g) in M6.
  change (gSplit g1) with (gSplit g) in M7. change (gColl g1) with (gColl g) in M8. change (gFlip g1) with (gFlip g) in M9. change (gSplitF g1) with (gSplitF g) in M10.
  pose proof (va_cn _ V') as CN'.
  assert (LL : liveH m' a /\ liveH m' (heFill m) /\ liveH m' (heFill m + 3) /\ liveH m' (heFill m + 1)).
  { destruct (Z_le_gt_dec (fFill m) (fa m (tw a))) as [Xt|Xt].
    - destruct (X1 Xt) as (_ & _ & _ & _ & Q & _). rewrite !Q. split; [auto|]. lia.
    - destruct (X2 ltac:(unfold ext; lia)) as (_ & _ & _ & _ & Q & _). rewrite !Q. split; [auto|]. lia. }
  destruct LL as (La & La' & Lt & Lb').
  assert (RV : vertexOf m' a = Ok (vFill m)). { rewrite <- Va. apply vertexOf_ok. pose proof (st_vert _ (va_st _ V')). pose proof (st_he _ (va_st _ V')). destruct La. lia. }
  rewrite RV. cbn [bind]. assert (LNV : liveV m' (vFill m)) by (apply LV; auto).
  destruct (setPos_ok g2 (vFill m) x G2) as (d & E3 & F3 & D3). { rewrite M1. exact LNV. } rewrite E3. cbn [bind].
  rewrite (prev_is m' (heFill m + 3) a V' Lt K3). cbn [bind]. assert (TT : tw (heFill m + 3) = heFill m + 2) by (rewrite <- T2, tw_tw; auto). rewrite TT.
  rewrite (prev_is m' (heFill m) (heFill m + 2) V' La' K6). cbn [bind]. rewrite T1.
  pose proof (st_edge _ (va_st _ V)) as (SE & _). pose proof (st_edge _ (va_st _ V')) as (SE' & _).
  assert (EB : heFill m + 1 = tw (eHe (eFill m))) by (rewrite tw_eHe; lia). rewrite EB in *.
  assert (E1 : edge a = e) by apply edge_eHe. assert (Eb : edge (tw (eHe (eFill m))) = eFill m) by (rewrite tw_edge; apply edge_eHe).
  set (g3 := withPos g2 d). change (pSplit g3) with (pSplit g2).
  assert (Pp : pSplit g2 = pSplit g) by (destruct M2 as (_ & _ & _ & Q & _); exact Q).
  assert (G3 : Good g3) by (destruct G2; split; auto).
  destruct (after_ok a (tw (eHe (eFill m))) t true c f (pSplit g2) g3) as (s' & c' & f' & A & F1 & F2 & F4 & _ & W).
  { intros p Hp. apply (gd_alive _ G3). rewrite !in_app_iff. tauto. }
  { exact M4. } { apply G3. } { apply G3. } { apply G3. } { apply G3. }
  { rewrite E1. change (gMesh g3) with (gMesh g2). rewrite M1. destruct La as [La _]. unfold a, eHe in La. lia. }
  { rewrite Eb. change (gMesh g3) with (gMesh g2). rewrite M1. destruct Lb' as [Lb' _]. rewrite tw_eHe in Lb'. pose proof (st_he _ (va_st _ V)). lia. }
  rewrite A. cbn [bind]. change (gMesh g3) with (gMesh g2) in *. rewrite E1, Eb in W. destruct (W ltac:(rewrite Pp; apply G)) as (W1 & W2 & W3).
  change (gSplit g3) with (gSplit g2) in W1. change (gColl g3) with (gColl g2) in W2. change (gFlip g3) with (gFlip g2) in W3.
  eexists. split; [reflexivity|]. split; [intros K; contradiction|]. intros _. eexists. exists c. split; [reflexivity|]. cbn [gMesh withEdges withLog g3 withPos]. split; [rewrite M1; reflexivity|]. split.
  - split; cbn [gMesh withEdges withLog g3 withPos gPos gRepos gSplit gColl gFlip gSplitF]; fold m.
    + destruct G3 as [Q0 Q1 Q2 Q3 Q4 Q5 Q6 Q7 Q8]. split; auto.
    + exact M2.
    + destruct (gPos g) as [d0|], (gPos g2) as [d2|], d as [d3|]; cbn in *; try tauto. destruct D3 as [D3 D4]. split; [exact D3|]. intros w Lw. rewrite D4; [apply M5; auto|destruct Lw; lia|destruct Lw; lia].
    + exact M6.
    + exact M10.
    + apply (kept_wrote_same m e (eFill m) true _ (gSplit g2)); auto; [lia|apply says_allows; auto].
    + apply (kept_wrote_same m e (eFill m) f _ (gFlip g2)); auto; [lia|apply says_allows; auto].
    + apply (kept_wrote m e (eFill m) c _ (gColl g2)); auto. lia.
    + intros b. split; intros K.
      * assert (b = true) as -> by (apply (says_fun _ _ _ _ K), says_allows; auto). destruct (gSplit g), (gSplit g2), s'; cbn in *; try tauto.
      * assert (b = f) as -> by (apply (says_fun _ _ _ _ K), says_allows; auto). destruct (gFlip g), (gFlip g2), f'; cbn in *; try tauto.
    + intros K. destruct (gColl g), (gColl g2), c'; cbn in *; try tauto.
    + exact Hc.
  - cbn [gLog withEdges withLog gMesh g3 withPos]. rewrite M3. cbn [g1 gLog withCache withLog]. rewrite <- app_assoc, M1, Pp. reflexivity.
Qed.

(** the two other ways to ask for a split *)
Lemma ends_ok g d e : Good g -> gPos g = Some d -> liveH (gMesh g) (eHe e) -> exists p q,
  dataAt d (ve (gMesh g) (eHe e)) = Ok p /\ dataAt d (ve (gMesh g) (tw (eHe e))) = Ok q /\ endPositions g d e = Ok (p, q).
Proof.
  intros G E L. pose proof (sr_valid _ (gd_start _ G)) as V. pose proof (va_cn _ V) as CN. set (m := gMesh g) in *.
  assert (LV : liveV m (ve m (eHe e))) by (apply CN; auto). assert (LW : liveV m (ve m (tw (eHe e)))) by (apply CN, CN; auto).
  assert (RV : vertexOf m (eHe e) = Ok (ve m (eHe e))) by (apply vertexOf_ok; pose proof (st_vert _ (va_st _ V)); pose proof (st_he _ (va_st _ V)); destruct L; lia).
  assert (RW : vertexOf m (tw (eHe e)) = Ok (ve m (tw (eHe e)))) by (apply vertexOf_ok; pose proof (st_vert _ (va_st _ V)); pose proof (st_he _ (va_st _ V)); destruct (cn_tw _ CN _ L); lia).
  pose proof (gd_pos _ G) as F. rewrite E in F. fold m in F. cbn [fitsO] in F.
  destruct (dataAt_ex m EVertex d _ V F LV) as (p & Ep). destruct (dataAt_ex m EVertex d _ V F LW) as (q & Eq). exists p, q. split; [auto|]. split; [auto|].
  unfold endPositions. fold m. rewrite RV. cbn [bind]. rewrite Ep. cbn [bind]. rewrite RW. cbn [bind]. rewrite Eq. reflexivity.
Qed.
Lemma split_at_ok g e t : Good g -> liveH (gMesh g) (eHe e) -> exists x, splitEdgeAt g e t = splitEdge g e t x /\
  forall d p q, gPos g = Some d -> dataAt d (ve (gMesh g) (eHe e)) = Ok p -> dataAt d (ve (gMesh g) (tw (eHe e))) = Ok q -> x = add3 (mul3 p (1 - t)%R) (mul3 q t).
Proof.
  intros G L. destruct (allows_ex _ EEdge (gSplit g) e (sr_valid _ (gd_start _ G)) (gd_split _ G) L) as (s & Es). unfold splitEdgeAt, maySplitEdge.
  rewrite Es. cbn [bind]. destruct (gPos g) as [d|] eqn:E.
  - destruct (ends_ok g d e G E L) as (p & q & Ep & Eq & ->). exists (lerp t p q). cbn [bind]. split.
    + destruct s; cbn [negb]; auto. unfold splitEdge, maySplitEdge. rewrite Es. reflexivity.
    + intros d' p' q' [= <-] Ep' Eq'. assert (p' = p) by congruence. assert (q' = q) by congruence. subst. reflexivity.
  - exists (mk3 0 0 0). cbn [bind]. split; [|discriminate]. destruct s; cbn [negb]; auto. unfold splitEdge, maySplitEdge. rewrite Es. reflexivity.
Qed.
Lemma split_near_ok g e x d : Good g -> liveH (gMesh g) (eHe e) -> gPos g = Some d -> exists p q,
  dataAt d (ve (gMesh g) (eHe e)) = Ok p /\ dataAt d (ve (gMesh g) (tw (eHe e))) = Ok q /\
  splitEdgeNear g e x = splitEdge g e (pointLineSegmentNeaestLocation x p q) x.
Proof.
  intros G L E. destruct (allows_ex _ EEdge (gSplit g) e (sr_valid _ (gd_start _ G)) (gd_split _ G) L) as (s & Es). destruct (ends_ok g d e G E L) as (p & q & Ep & Eq & EE).
  exists p, q. split; [auto|]. split; [auto|]. unfold splitEdgeNear, maySplitEdge. rewrite Es, E, EE. cbn [bind]. destruct s; cbn [negb]; auto. unfold splitEdge, maySplitEdge. rewrite Es. reflexivity.
Qed.

(** ** splitting a face *)
Lemma split_face_ok g f b x : Good g -> liveF (gMesh g) f ->
  let m := gMesh g in
  exists r, splitFace g f b x = Ok r /\
   (forbids (gSplitF g) f -> r = (g, None)) /\
   (~ forbids (gSplitF g) f -> exists g' v, r = (g', Some v) /\ insertVertex m f = Ok (gMesh g', v) /\ Good g' /\ samePolicies g g' /\
     match gPos g, gPos g' with None, None => True | Some d, Some d' => dataAt d' v = Ok x /\ forall w, liveV m w -> w <> v -> dataAt d' w = dataAt d w | _, _ => False end /\
     kept m EVertex (gRepos g) (gRepos g') /\ kept m EEdge (gSplit g) (gSplit g') /\ kept m EEdge (gColl g) (gColl g') /\ kept m EEdge (gFlip g) (gFlip g') /\ kept m EFace (gSplitF g) (gSplitF g') /\
     gLog g' = gLog g ++ map (fun p => BeforeFaceSplit p f b m) (pFace g) ++ map (fun p => AfterFaceSplit p v b (gMesh g')) (pFace g)).
Proof.
  intros G L m. pose proof (gd_start _ G) as S. pose proof (sr_valid _ S) as V. fold m in S, V, L.
  destruct (allows_ex m EFace (gSplitF g) f V (gd_splitF _ G) L) as (s & Es). unfold splitFace, maySplitFace. rewrite Es. cbn [bind].
  destruct s; cbn [negb]; [|exists (g, None); split; [reflexivity|]; split; [auto|]; intros K; exfalso; apply K, says_allows; auto].
  assert (NF : ~ forbids (gSplitF g) f) by (intros K; apply says_allows in K; congruence).
  rewrite callAll_ok by (intros p Hp; apply (gd_alive _ G); rewrite !in_app_iff; tauto). cbn [bind gMesh withLog]. fold m.
  destruct (start_step m (OInsertVertex f) S L) as (m' & E & S' & _). pose proof E as E0. cbn [applyOp] in E. apply bindE in E as ([m2 v] & Ei & E). injection E as ->. rewrite Ei. cbn [bind].
  set (g1 := withLog _ _). assert (G1 : Good g1) by (destruct G; split; auto).
  destruct (withMesh_ok g1 (OInsertVertex f) m' G1 L) as (g2 & E2 & M2 & G2); [discriminate|exact E0|].
  rewrite E2. cbn [bind]. destruct M2 as [M1 M2 M3 M4 M5 M6 M7 M8 M9 M10]. change (gMesh g1) with m in *.
  assert (LNV : liveV (gMesh g2) v).
  { rewrite M1. destruct (faceHalfedges_ok m V f (or_introl L)) as (hs & _ & H1 & H2 & H3 & _). destruct (insert_vertex_spec m f hs V (sr_loops _ S) L H1 H2 H3) as (m3 & E3 & _ & _ & _ & _ & _ & _ & _ & _ & _ & LV & _).
    assert (m3 = m' /\ v = vFill m) as (-> & ->) by (split; congruence). apply LV. auto. }
  destruct (setPos_ok g2 v x G2 LNV) as (d & E3 & F3 & D3). rewrite E3. cbn [bind].
  set (g3 := withPos g2 d). assert (G3 : Good g3) by (destruct G2; split; auto).
  rewrite callAll_ok by (intros p Hp; apply (gd_alive _ G3); rewrite !in_app_iff; tauto). cbn [bind].
  eexists. split; [reflexivity|]. split; [intros K; contradiction|]. intros _. do 2 eexists. split; [reflexivity|].
  assert (Pf : pFace g2 = pFace g) by (destruct M2 as (_ & _ & _ & _ & _ & Q); exact Q).
  cbn [gMesh withLog g3 withPos gLog gPos gRepos gSplit gColl gFlip gSplitF pFace]. split; [rewrite M1; reflexivity|]. split; [destruct G3; split; auto|]. split; [exact M2|].
  split. { change (gPos g1) with (gPos g) in M5. destruct (gPos g) as [d0|], (gPos g2) as [d2|], d as [d3|]; cbn in *; try tauto. destruct D3 as [D3 D4]. split; [exact D3|]. intros w Lw Nw. rewrite D4; [apply M5; auto|destruct Lw; lia|auto]. }
  split; [exact M6|]. split; [exact M7|]. split; [exact M8|]. split; [exact M9|]. split; [exact M10|].
  rewrite M3. cbn [g1 gLog withLog]. rewrite <- app_assoc, M1, Pf. reflexivity.
Qed.

(** ** moving a vertex *)
Lemma reposition_ok g v off d : Good g -> liveV (gMesh g) v -> gPos g = Some d -> exists r, repositionVertex g v off = Ok r /\
  (forbids (gRepos g) v -> r = (g, false)) /\
  (~ forbids (gRepos g) v -> exists g' d' x, r = (g', true) /\ Good g' /\ gMesh g' = gMesh g /\ samePolicies g g' /\ dataAt d v = Ok x /\ gPos g' = Some d' /\
     dataAt d' v = Ok (add3 x off) /\ (forall w, liveV (gMesh g) w -> w <> v -> dataAt d' w = dataAt d w) /\
     gRepos g' = gRepos g /\ gSplit g' = gSplit g /\ gColl g' = gColl g /\ gFlip g' = gFlip g /\ gSplitF g' = gSplitF g /\
     gLog g' = gLog g ++ map (fun p => BeforeReposition p v off (gMesh g)) (pRepos g)).
Proof.
  intros G L E. pose proof (sr_valid _ (gd_start _ G)) as V.
  destruct (allows_ex _ EVertex (gRepos g) v V (gd_repos _ G) L) as (s & Es). unfold repositionVertex, mayRepositionVertex. rewrite Es. cbn [bind].
  destruct s; cbn [negb]; [|exists (g, false); split; [reflexivity|]; split; [auto|]; intros K; exfalso; apply K, says_allows; auto].
  rewrite callAll_ok by (intros p Hp; apply (gd_alive _ G); rewrite !in_app_iff; tauto). cbn [bind gPos withLog]. rewrite E.
  pose proof (gd_pos _ G) as F. rewrite E in F. cbn [fitsO] in F. destruct (dataAt_ex _ EVertex d v V F L) as (x & Ex). rewrite Ex. cbn [bind].
  destruct (fits_write _ _ EVertex d v (add3 x off) V F) as (d1 & E1 & F1 & _ & A & B). { cbn [fillOf]. destruct L; auto. } rewrite E1. cbn [bind].
  eexists. split; [reflexivity|]. split; [intros K; apply says_allows in K; congruence|]. intros _. do 2 eexists. exists x. split; [reflexivity|].
  split; [destruct G; split; auto|]. split; [reflexivity|]. split; [repeat split|]. split; [auto|]. split; [reflexivity|]. split; [exact A|].
  split; [intros w [Lw _] N; apply B; auto; lia|]. repeat split.
Qed.

(** ** collapsing an edge *)
Lemma collapse_ok g e t x : Good g -> liveH (gMesh g) (eHe e) ->
  (~ collapseOk g e -> collapseEdge g e t x = Ok (g, None) /\ collapseEdgeAt g e t = Ok (g, None) /\ collapseEdgeNear g e x = Ok (g, None)) /\
  (collapseOk g e -> forall m' r, collapseEdgeTriangular (gMesh g) e = Ok (m', r) -> forall g', withMesh g m' = Ok g' -> Good g' ->
    (r = None -> collapseEdge g e t x = Ok (withLog g' (gLog g ++ map (fun p => BeforeCollapse p e t (gMesh g)) (pColl g)), None)) /\
    (forall v, r = Some v -> liveV m' v -> exists d, collapseEdge g e t x =
       Ok (withLog (withPos g' d) (gLog g ++ map (fun p => BeforeCollapse p e t (gMesh g)) (pColl g) ++ map (fun p => AfterCollapse p v t m') (pColl g)), Some v) /\
       match gPos g', d with None, None => True | Some d0, Some d1 => dataAt d1 v = Ok x /\ forall j, 0 <= j -> j <> v -> dataAt d1 j = dataAt d0 j | _, _ => False end)).
Proof.
  intros G L. destruct (mayCollapse_ok g e G L) as (c & Ec & Hc). split.
  - intros N. assert (c = false) as -> by (destruct c; [exfalso; apply N, Hc; auto|auto]). unfold collapseEdge, collapseEdgeAt, collapseEdgeNear. rewrite Ec. cbn [bind negb]. auto.
  - intros Y m' r Er g' Eg G'. assert (c = true) as -> by (apply Hc; auto). unfold collapseEdge. rewrite Ec. cbn [bind negb].
    rewrite callAll_ok by (intros p Hp; apply (gd_alive _ G); rewrite !in_app_iff; tauto). cbn [bind gMesh withLog]. rewrite Er. cbn [bind].
    assert (EW : withMesh (withLog g (gLog g ++ map (fun p => BeforeCollapse p e t (gMesh g)) (pColl g))) m' = Ok (withLog g' (gLog g ++ map (fun p => BeforeCollapse p e t (gMesh g)) (pColl g)))
                 /\ gMesh g' = m' /\ pColl g' = pColl g /\ gAll g' = gAll g).
    { revert Eg. unfold withMesh. cbn [gMesh gPos gRepos gSplit gColl gFlip gSplitF gAll pRepos pFlip pSplit pColl pFace gCache gLog withLog].
      repeat match goal with |- context [followO ?k ?a ?b ?c] => destruct (followO k a b c); cbn [bind]; [|discriminate|discriminate] end. intros [= <-]. auto. }
    destruct EW as (-> & Em & Ep & Ea). cbn [bind]. split; [intros ->; reflexivity|].
    intros v -> Lv. set (g1 := withLog _ _). assert (G1 : Good g1) by (destruct G'; split; auto).
    destruct (setPos_ok g1 v x G1) as (d & E3 & F3 & D3). { change (gMesh g1) with (gMesh g'). rewrite Em. exact Lv. }
    rewrite E3. cbn [bind]. exists d. split; [|exact D3].
    rewrite callAll_ok. 2:{ intros p Hp. apply (gd_alive _ G1). rewrite !in_app_iff. cbn in Hp. cbn. tauto. }
    cbn [bind g1 withLog withPos gLog pColl gMesh]. rewrite Ep, <- app_assoc. reflexivity.
Qed.

Lemma collapse_done g e t x : Good g -> OpPre (gMesh g) (OCollapse e) -> collapseOk g e -> exists g' r,
  collapseEdge g e t x = Ok (g', r) /\ collapseEdgeTriangular (gMesh g) e = Ok (gMesh g', r) /\ Good g' /\ samePolicies g g' /\
  gRepos g' = gRepos g /\ gSplit g' = gSplit g /\ gColl g' = gColl g /\ gFlip g' = gFlip g /\ gSplitF g' = gSplitF g /\
  gLog g' = gLog g ++ map (fun p => BeforeCollapse p e t (gMesh g)) (pColl g) ++ match r with None => [] | Some v => map (fun p => AfterCollapse p v t (gMesh g')) (pColl g) end /\
  match r with
  | None => gMesh g' = gMesh g /\ gPos g' = gPos g
  | Some v => liveV (gMesh g') v /\ match gPos g, gPos g' with None, None => True | Some d, Some d' => dataAt d' v = Ok x /\ forall w, liveV (gMesh g) w -> w <> v -> dataAt d' w = dataAt d w | _, _ => False end
  end.
Proof.
  intros G P O. set (m := gMesh g) in *. pose proof (gd_start _ G) as S. fold m in S. pose proof P as (_ & NS & Le & _).
  destruct (collapse_legal m e (sr_valid _ S) P) as (m' & r & E & K). destruct (start_step m (OCollapse e) S P) as (m2 & E2 & S' & _).
  assert (m2 = m') by (cbn [applyOp] in E2; rewrite E in E2; cbn [bind] in E2; congruence). subst m2. clear E2.
  destruct (shape_collapse _ _ _ _ E) as [Sh _]. pose proof (withMesh_shape g m' Sh) as W.
  assert (G' : Good (putMesh g m')). { destruct G as [G0 G1 G2 G3 G4 G5 G6 G7 G8]. split; cbn; auto; eapply fitsO_shape; eauto. }
  destruct (collapse_ok g e t x G Le) as [_ Q]. destruct (Q O m' r E _ W G') as [Q1 Q2]. clear Q. destruct r as [v|].
  - destruct K as (a & TG & Ev & _ & _ & _ & C & _). assert (Lv : liveV m' v).
    { subst v. pose proof (target_live m e a (sr_valid _ S) Le TG) as La. apply (co_v _ _ _ C). split; [apply (va_cn _ (sr_valid _ S)), (va_cn _ (sr_valid _ S)), La|]. intros X. apply (NS a La). auto. }
    destruct (Q2 v eq_refl Lv) as (d & R & D). eexists. exists (Some v). split; [exact R|]. cbn. split; [exact E|]. split.
    + destruct (setPos_ok (putMesh g m') v x G' Lv) as (d2 & R2 & F2 & _). destruct G' as [G0 G1 G2 G3 G4 G5 G6 G7 G8]. split; cbn; auto.
      change (gPos (putMesh g m')) with (gPos g) in D. unfold setPos in R2. change (gPos (putMesh g m')) with (gPos g) in R2.
      destruct (gPos g) as [d0|] eqn:E0; destruct d as [d1|]; try contradiction; cbn [fitsO]; auto.
      assert (HF : fitsO m' EVertex (Some d1)); [|exact HF]. revert R. unfold collapseEdge. intros R. clear R2 F2 d2.
      destruct (mayCollapseEdge g e) as [c0| |]; try discriminate R. cbn [bind] in R. destruct c0; [|discriminate R]. cbn [negb] in R.
      rewrite callAll_ok in R by (intros p Hp; apply (gd_alive _ G); rewrite !in_app_iff; tauto). cbn [bind gMesh withLog] in R. fold m in R. rewrite E in R. cbn [bind] in R.
      match type of R with context [withMesh ?gg m'] => rewrite (withMesh_shape gg m' Sh) in R; assert (GG : Good (putMesh gg m')) by (split; cbn; auto); destruct (setPos_ok (putMesh gg m') v x GG Lv) as (d2 & R2 & F2 & _) end.
      cbn [bind] in R. rewrite R2 in R. cbn [bind] in R. rewrite callAll_ok in R by (intros p Hp; cbn; apply G7; rewrite !in_app_iff; cbn in Hp |- *; tauto).
      cbn [bind] in R. injection R as R. assert (d2 = Some d1) as <- by congruence. exact F2.
    + split; [repeat split|]. do 5 (split; [reflexivity|]). split; [reflexivity|]. split; [exact Lv|]. change (gPos (putMesh g m')) with (gPos g) in D.
      destruct (gPos g), d; auto. destruct D as [D1 D2]. split; auto. intros w [Lw _] N. apply D2; auto. lia.
  - destruct K as [-> _]. eexists. exists None. split; [exact (Q1 eq_refl)|]. cbn. split; [exact E|]. split; [destruct G'; split; cbn; auto|]. split; [repeat split|]. do 5 (split; [reflexivity|]). rewrite app_nil_r. auto.
Qed.

(** ** histories *)
Lemma respected_refl g : respected g g.
Proof. split; [intros e ? ? ?|intros v ? ?]; auto. Qed.
Lemma edges_trans a b c : edgesRespected a b -> edgesRespected b c -> edgesRespected a c.
Proof.
  intros A1 B1 e L F S. destruct (A1 e L F S) as (L' & E1 & E2 & F' & S'). destruct (B1 e L' F' S') as (L'' & E3 & E4 & F'' & S''). split; auto. rewrite E3, E4. auto.
Qed.
Lemma vertices_trans a b c : verticesRespected a b -> verticesRespected b c -> verticesRespected a c.
Proof.
  intros A2 B2 v L F. destruct (A2 v L F) as (L' & E1 & F'). destruct (B2 v L' F') as (L'' & E2 & F''). split; auto. rewrite E2. auto.
Qed.
Lemma kept_forbids m k c c' i : kept m k c c' -> liveE m k i -> forbids c i -> forbids c' i.
Proof. unfold forbids, says, kept. destruct c, c'; try tauto; try discriminate. intros K L F. rewrite K; auto. Qed.
Lemma keptBut_forbids m k c c' i : keptBut [] m k c c' -> liveE m k i -> forbids c i -> forbids c' i.
Proof. unfold forbids, says, keptBut. destruct c, c'; try tauto; try discriminate. intros K L F. rewrite K; auto. Qed.
Lemma eHe_inj a b : eHe a = eHe b -> a = b. Proof. unfold eHe. lia. Qed.
Lemma eHe_tw a b : eHe a <> tw (eHe b). Proof. rewrite tw_eHe. unfold eHe. lia. Qed.

Lemma respected_split g g' e c x : Good g -> OpPre (gMesh g) (OSplit e) -> splitEdgeTriangular (gMesh g) e = Ok (gMesh g', eHe e) -> ~ forbids (gSplit g) e ->
  SplitDone g g' e (vFill (gMesh g)) x c -> respected g g'.
Proof.
  intros G P E NF [D1 D2 D3 D4 D5 D6 D7 D8 D9 D10 D11]. pose proof P as (TR & L & N1 & N2). pose proof (gd_start _ G) as S. pose proof (sr_valid _ S) as V. set (m := gMesh g) in *.
  destruct (split_spec m e V (sr_loops _ S) TR L N1 N2) as (m' & E' & V' & _ & _ & _ & _ & LV & NV & VO & _ & _ & _ & _ & _ & _ & _ & _ & _ & _ & X1 & X2 & _).
  assert (m' = gMesh g') by congruence. subst m'. split.
  - intros e0 L0 F0 S0. assert (N0 : e0 <> e) by (intros ->; contradiction). assert (La : eHe e0 <> eHe e) by (intros K; apply N0, eHe_inj; auto).
    assert (Lb : tw (eHe e0) <> eHe e) by (apply not_eq_sym, eHe_tw). assert (L0' : liveH m (tw (eHe e0))) by (apply V; auto).
    split; [|split; [apply VO; auto|split; [apply VO; auto|split]]].
    + destruct (Z_le_gt_dec (fFill m) (fa m (tw (eHe e)))) as [Xt|Xt].
      * destruct (X1 Xt) as (_ & _ & _ & _ & Q & _). apply Q. auto.
      * destruct (X2 ltac:(unfold ext; lia)) as (_ & _ & _ & _ & Q & _). apply Q. auto.
    + eapply keptBut_forbids; [exact D7|exact L0|auto].
    + eapply keptBut_forbids; [exact D6|exact L0|auto].
  - intros v Lv Fv. split; [apply LV; auto|]. split; [|eapply kept_forbids; [exact D4|exact Lv|auto]].
    unfold posAt. destruct (gPos g), (gPos g'); try tauto. f_equal. apply D3. auto.
Qed.

Lemma call_step_plain g c : Good g -> CallPre g c -> ~ isCollapse c -> exists g', runCall g c = Ok g' /\ Good g' /\ respected g g'.
Proof.
  intros G P NC. assert (SPL : forall e t x, OpPre (gMesh g) (OSplit e) -> exists g', (let* (g, _) := splitEdge g e t x in Ok g) = Ok g' /\ Good g' /\ respected g g').
  { intros e t x Q. destruct (split_edge_ok g e t x G Q) as (r & E & A & B). rewrite E. cbn [bind]. destruct Q as (TR & L & N) eqn:EQ.
    destruct (allows_ex _ EEdge (gSplit g) e (sr_valid _ (gd_start _ G)) (gd_split _ G) L) as (s & Es). destruct s.
    - assert (NF : ~ forbids (gSplit g) e) by (intros K; apply says_allows in K; congruence). destruct (B NF) as (g' & cc & -> & E1 & SD & _). exists g'. split; [reflexivity|]. split; [apply SD|].
      apply (respected_split g g' e cc x); auto.
    - rewrite A by (apply says_allows; auto). exists g. split; [reflexivity|]. split; [auto|apply respected_refl]. }
  destruct c as [e|e t x|e t|e x|v off|f b x|e t x|e t|e x]; cbn [runCall CallPre isCollapse] in *; try tauto.
  - destruct (flip_edge_ok g e G P) as (g' & ok & E & G' & O & R & T). rewrite E. cbn [bind]. exists g'. split; [reflexivity|]. split; [auto|].
    destruct ok; [|rewrite R by auto; apply respected_refl]. destruct (proj1 O eq_refl) as (NF & _). destruct (T eq_refl) as (_ & (S1 & S2 & _) & _ & VO & _ & _ & (D1 & D2 & D3 & D4 & D5 & D6) & _). split.
    + intros e0 L0 F0 S0. assert (N0 : e0 <> e) by (intros ->; contradiction). assert (La : eHe e0 <> eHe e) by (intros K; apply N0, eHe_inj; auto). rewrite D3, D5. split; [apply S1; auto|].
      split; [|split; [|auto]]; apply VO; auto; try apply eHe_tw; try apply not_eq_sym, eHe_tw; intros K; apply La, tw_inj, K.
    + intros v Lv Fv. unfold posAt. rewrite D1, D2. split; [apply S2; auto|]. auto.
  - apply SPL, P.
  - destruct (split_at_ok g e t G (proj1 (proj2 P))) as (x & -> & _). apply SPL, P.
  - destruct P as [P Np]. destruct (gPos g) as [d|] eqn:E; [|contradiction]. destruct (split_near_ok g e x d G (proj1 (proj2 P)) E) as (p & q & _ & _ & ->). apply SPL, P.
  - destruct P as [L Np]. destruct (gPos g) as [d|] eqn:E; [|contradiction]. destruct (reposition_ok g v off d G L E) as (r & E1 & A & B). rewrite E1. cbn [bind].
    destruct (allows_ex _ EVertex (gRepos g) v (sr_valid _ (gd_start _ G)) (gd_repos _ G) L) as (s & Es). destruct s.
    + assert (NF : ~ forbids (gRepos g) v) by (intros K; apply says_allows in K; congruence). destruct (B NF) as (g' & d' & y & -> & G' & EM & _ & _ & EP & _ & K & D1 & D2 & D3 & D4 & D5 & _).
      exists g'. split; [reflexivity|]. split; [auto|]. rewrite <- EM in K. split.
      * intros e0 L0 F0 S0. rewrite EM, D2, D4. auto.
      * intros w Lw Fw. rewrite EM, D1. split; [auto|]. split; [|auto]. unfold posAt. rewrite EP, E. f_equal. apply K; [rewrite EM; auto|]. intros ->. contradiction.
    + rewrite A by (apply says_allows; auto). exists g. split; [reflexivity|]. split; [auto|apply respected_refl].
  - destruct (split_face_ok g f b x G P) as (r & E & A & B). rewrite E. cbn [bind].
    destruct (allows_ex _ EFace (gSplitF g) f (sr_valid _ (gd_start _ G)) (gd_splitF _ G) P) as (s & Es). destruct s.
    + assert (NF : ~ forbids (gSplitF g) f) by (intros K; apply says_allows in K; congruence). destruct (B NF) as (g' & v & -> & EI & G' & _ & DP & K1 & K2 & K3 & K4 & K5 & _).
      exists g'. split; [reflexivity|]. split; [auto|]. pose proof (gd_start _ G) as S. pose proof (sr_valid _ S) as V. set (m := gMesh g) in *.
      destruct (faceHalfedges_ok m V f (or_introl P)) as (hs & _ & H1 & H2 & H3 & _). destruct (insert_vertex_spec m f hs V (sr_loops _ S) P H1 H2 H3) as (m3 & E3 & _ & _ & _ & _ & _ & _ & _ & _ & NV & LV & LH & _ & _ & VO & _).
      assert (m3 = gMesh g' /\ v = vFill m) as (-> & ->) by (split; congruence). split.
      * intros e0 L0 F0 S0. assert (L0' : liveH m (tw (eHe e0))) by (apply V; auto). split; [apply LH; auto|]. split; [apply VO; auto|]. split; [apply VO; auto|].
        split; [eapply kept_forbids; [exact K4|exact L0|auto]|eapply kept_forbids; [exact K2|exact L0|auto]].
      * intros w Lw Fw. split; [apply LV; auto|]. split; [|eapply kept_forbids; [exact K1|exact Lw|auto]].
        unfold posAt. destruct (gPos g), (gPos g'); try tauto. f_equal. apply DP; auto. intros ->. contradiction.
    + rewrite A by (apply says_allows; auto). exists g. split; [reflexivity|]. split; [auto|apply respected_refl].
Qed.
Lemma collapse_at_ok g e t : Good g -> liveH (gMesh g) (eHe e) -> exists x, collapseEdgeAt g e t = collapseEdge g e t x /\
  forall d p q, gPos g = Some d -> dataAt d (ve (gMesh g) (eHe e)) = Ok p -> dataAt d (ve (gMesh g) (tw (eHe e))) = Ok q -> x = add3 (mul3 p (1 - t)%R) (mul3 q t).
Proof.
  intros G L. destruct (mayCollapse_ok g e G L) as (c & Ec & _). unfold collapseEdgeAt, collapseEdge. rewrite Ec. cbn [bind]. destruct (gPos g) as [d|] eqn:Ed.
  - destruct (ends_ok g d e G Ed L) as (p & q & Ep & Eq & ->). exists (lerp t p q). split; [destruct c; reflexivity|]. intros d' p' q' [= <-] E1 E2. rewrite Ep in E1. rewrite Eq in E2. injection E1 as <-. injection E2 as <-. reflexivity.
  - exists (mk3 0 0 0). split; [destruct c; reflexivity|]. discriminate.
Qed.
Lemma collapse_near_ok g e x : Good g -> liveH (gMesh g) (eHe e) -> gPos g <> None -> collapseEdgeNear g e x = collapseEdge g e (-1)%R x.
Proof.
  intros G L N. destruct (gPos g) as [d|] eqn:Ed; [|congruence].
  unfold collapseEdgeNear. rewrite Ed. destruct (ends_ok g d e G Ed L) as (p & q & _ & _ & ->). cbn [bind]. unfold collapseEdge.
  destruct (mayCollapseEdge g e) as [a| |]; cbn [bind]; auto. destruct a; cbn [negb]; reflexivity.
Qed.
Lemma collapse_step g e t x : Good g -> OpPre (gMesh g) (OCollapse e) -> ~ earEdge (gMesh g) e -> exists g' r, collapseEdge g e t x = Ok (g', r) /\ Good g' /\ verticesRespected g g'.
Proof.
  intros G P NE. pose proof P as (_ & _ & Le & _). destruct (mayCollapse_ok g e G Le) as (c & Ec & Hc). destruct c.
  2:{ exists g, None. split; [|split; [auto|apply respected_refl]]. apply (collapse_ok g e t x G Le). intros K. apply Hc in K. discriminate. }
  pose proof (proj1 Hc eq_refl) as O. destruct (collapse_done g e t x G P O) as (g' & r & E & EM & G' & _ & ER & _ & _ & _ & _ & _ & K). exists g', r. split; [exact E|]. split; [exact G'|].
  pose proof (sr_valid _ (gd_start _ G)) as V. destruct (collapse_legal _ e V P) as (m' & r' & E' & Q). assert (m' = gMesh g' /\ r' = r) as [-> ->] by (split; congruence).
  intros w Lw Fw. rewrite ER. destruct r as [v|].
  - destruct Q as (a & TG & -> & _ & _ & _ & C & _). pose proof (target_edge _ e a NE TG) as Ea. destruct O as (_ & O1 & O2). destruct K as [_ K].
    assert (D : w <> ve (gMesh g) a /\ w <> ve (gMesh g) (tw a)).
    { assert (F : w <> ve (gMesh g) (eHe e) /\ w <> ve (gMesh g) (tw (eHe e))) by (split; intros ->; unfold forbids, says in *; destruct (gRepos g); congruence).
      destruct (proj1 (edge_eq a (eHe e))) as [X|X]; [rewrite edge_eHe; exact Ea| |]; rewrite X, ?tw_tw; [exact F|]. destruct F; split; auto. }
    split; [apply (co_v _ _ _ C); tauto|]. split; [|auto]. unfold posAt. destruct (gPos g), (gPos g'); try tauto. f_equal. apply K; tauto.
  - destruct K as [K1 K2]. unfold posAt. rewrite K1, K2. auto.
Qed.
Lemma call_step g c : Good g -> CallPre g c -> exists g', runCall g c = Ok g' /\ Good g' /\ verticesRespected g g' /\ (~ isCollapse c -> edgesRespected g g').
Proof.
  intros G P. assert (D : isCollapse c \/ ~ isCollapse c) by (destruct c; cbn; auto). destruct D as [D|D].
  - destruct c as [e|e t x|e t|e x|v off|f b x|e t x|e t|e x]; cbn [isCollapse] in D; try contradiction; cbn [runCall CallPre] in *.
    + destruct P as [P NE]. destruct (collapse_step g e t x G P NE) as (g' & r & E & G' & R). exists g'. rewrite E. split; [reflexivity|]. split; auto. split; auto. intros K. destruct (K I).
    + destruct P as [P NE]. destruct (collapse_at_ok g e t G) as (x & -> & _); [apply P|]. destruct (collapse_step g e t x G P NE) as (g' & r & E & G' & R). exists g'. rewrite E. split; [reflexivity|]. split; auto. split; auto. intros K. destruct (K I).
    + destruct P as (P & NE & NP). rewrite collapse_near_ok; auto; [|apply P]. destruct (collapse_step g e (-1)%R x G P NE) as (g' & r & E & G' & R). exists g'. rewrite E. split; [reflexivity|]. split; auto. split; auto. intros K. destruct (K I).
  - destruct (call_step_plain g c G P D) as (g' & E & G' & R1 & R2). exists g'. auto.
Qed.
Lemma calls_run l : forall g, Good g -> CallsPre g l -> exists g', runCalls g l = Ok g' /\ Good g' /\ verticesRespected g g' /\ (Forall (fun c => ~ isCollapse c) l -> edgesRespected g g').
Proof.
  unfold runCalls. induction l as [|c l IH]; intros g G P; cbn [foldM].
  - exists g. split; [reflexivity|]. split; [auto|]. split; [apply respected_refl|]. intros _. apply respected_refl.
  - destruct P as [P0 P1]. destruct (call_step g c G P0) as (g1 & E1 & G1 & R1 & R2). rewrite E1. cbn [bind]. destruct (IH g1 G1 (P1 g1 E1)) as (g' & E & G' & R3 & R4). exists g'. split; [auto|]. split; [auto|].
    split; [eapply vertices_trans; eauto|]. intros F. inversion F; subst. eapply edges_trans; eauto.
Qed.

(** ** construction, policies *)
Lemma new_good m pos : Start m -> fitsO m EVertex pos -> Good (newManager m pos).
Proof. intros S F. split; cbn; auto. Qed.
Lemma register_good g p k : Good g -> Good (registerPolicy g p k).
Proof.
  intros [S G1 G2 G3 G4 G5 G6 G7 G8]. split; cbn [registerPolicy withPolicies gMesh gPos gRepos gSplit gColl gFlip gSplitF gAll pRepos pFlip pSplit pColl pFace]; auto.
  - intros q. pose proof (G7 q) as Q. rewrite !in_app_iff in *. unfold pushIf. intros H. destruct (kRepos k), (kFlip k), (kSplit k), (kColl k), (kFace k); rewrite ?in_app_iff in H; tauto.
  - unfold pushIf. destruct (kSplit k); rewrite ?in_app_iff; auto.
Qed.
Lemma removeFirst_in p q l : In q l -> q <> p -> In q (removeFirst p l).
Proof. induction l as [|x t IH]; cbn; [auto|]. intros H N. destruct (Z.eqb_spec x p) as [->|K]; destruct H as [->|H]; cbn; auto; contradiction. Qed.
Lemma remove_good g p : Good g -> p <> 0 -> ~ In p (pFace g) -> Good (removePolicy g p) /\
  forall q, In q (pRepos (removePolicy g p) ++ pFlip (removePolicy g p) ++ pSplit (removePolicy g p) ++ pColl (removePolicy g p) ++ pFace (removePolicy g p)) -> q <> p.
Proof.
  intros [S G1 G2 G3 G4 G5 G6 G7 G8] Np Nf. assert (Q : forall q, In q (pRepos (removePolicy g p) ++ pFlip (removePolicy g p) ++ pSplit (removePolicy g p) ++ pColl (removePolicy g p) ++ pFace (removePolicy g p)) -> q <> p /\ In q (gAll g)).
  { intros q. pose proof (G7 q) as Q. cbn [removePolicy withPolicies gAll pRepos pFlip pSplit pColl pFace]. unfold removeFrom. rewrite !in_app_iff, !filter_In in *. intros H. split; [|tauto].
    intros ->. rewrite Z.eqb_refl in H. cbn in H. clear -H Nf. destruct H as [[_ H]|[[_ H]|[[_ H]|[[_ H]|H]]]]; try discriminate; contradiction. }
  split; [|intros q H; exact (proj1 (Q q H))]. split; cbn [removePolicy withPolicies gMesh gPos gRepos gSplit gColl gFlip gSplitF]; auto.
  - intros q H. destruct (Q q H) as [N I]. apply removeFirst_in; auto.
  - apply filter_In. split; auto. destruct (Z.eqb_spec 0 p); [congruence|auto].
Qed.
Lemma set_good g k d x : Good g -> k <> ELoop -> Fits (gMesh g) k d -> exists c, setConstraint g k d x = Ok (Some c) /\ Fits (gMesh g) k c /\ forall i, liveE (gMesh g) k i -> dataAt c i = dataAt d i.
Proof.
  intros G N F. pose proof (sr_valid _ (gd_start _ G)) as V. destruct (fits_default _ _ k d x V F (start_fill _ k (gd_start _ G) N)) as (els & E1 & F1 & _ & K). unfold setConstraint. rewrite E1. cbn [bind].
  eexists. split; [reflexivity|]. split; auto.
Qed.
