(** Every legal history keeps the mesh valid, its counts right and its Euler characteristic unchanged *)
From Coq Require Import Sorted.
From Verif Require Import Base MeshModel MeshModel2 MeshCompressModel MeshSpec MeshOpSpec MeshBase MeshOrbit MeshAlloc MeshThms MeshSwitch MeshConnect
  MeshRemoveEdge MeshRemoveVertex MeshSplit MeshInsertVertex MeshCompress MeshCheck MeshExamples DataModel DataProofs MeshDataModel MeshEvents CollapseModel CollapseSpec CollapseTop CollapseKeep CollapseEvents MeshHistoryModel MeshHistorySpec.
Open Scope Z_scope.

(** flip and switchHalfedgeSides do not touch fills and capacities *)
Lemma bindE' {A B} (r : res A) (f : A -> res B) y : bind r f = Ok y -> exists x, r = Ok x /\ f x = Ok y.
Proof. exact (bindE r f y). Qed.
Lemma shape_set m m' : (exists h x, setNext m h x = Ok m' \/ setVertex m h x = Ok m' \/ setFace m h x = Ok m' \/ setVHe m h x = Ok m' \/ setFHe m h x = Ok m') -> shape m' = shape m.
Proof. intros (h & x & [H|[H|[H|[H|H]]]]); apply bindE in H as (l & _ & H); injection H as <-; reflexivity. Qed.
Ltac sh_known H :=
  lazymatch type of H with
  | setNext _ _ _ = Ok _ => apply (fun E => shape_set _ _ (ex_intro _ _ (ex_intro _ _ (or_introl E)))) in H
  | setVertex _ _ _ = Ok _ => apply (fun E => shape_set _ _ (ex_intro _ _ (ex_intro _ _ (or_intror (or_introl E))))) in H
  | setFace _ _ _ = Ok _ => apply (fun E => shape_set _ _ (ex_intro _ _ (ex_intro _ _ (or_intror (or_intror (or_introl E)))))) in H
  | setVHe _ _ _ = Ok _ => apply (fun E => shape_set _ _ (ex_intro _ _ (ex_intro _ _ (or_intror (or_intror (or_intror (or_introl E))))))) in H
  | setFHe _ _ _ = Ok _ => apply (fun E => shape_set _ _ (ex_intro _ _ (ex_intro _ _ (or_intror (or_intror (or_intror (or_intror E))))))) in H
  end.
Ltac sh_step := match goal with
  | H : bind _ _ = Ok _ |- _ => let x := fresh "x" in let E := fresh "E" in apply bindE in H as (x & E & H); first [sh_known E | idtac]
  | H : (let (_, _) := ?p in _) = Ok _ |- _ => let a := fresh "a" in let b := fresh "b" in destruct p as [a b]
  | H : (if ?b then _ else _) = Ok _ |- _ => destruct b
  | H : Ok _ = Ok _ |- _ => injection H as H; subst
  | H : _ |- _ => sh_known H
  end.
Lemma shape_flip m e p m' b : flip m e p = Ok (m', b) -> shape m' = shape m.
Proof. unfold flip. intros H. repeat sh_step; congruence. Qed.
Lemma shape_switch m e m' : switchHalfedgeSides m e = Ok m' -> shape m' = shape m.
Proof. unfold switchHalfedgeSides. intros H. repeat sh_step; congruence. Qed.

Lemma noDead_shape m m' : shape m' = shape m -> nLoops m' = nLoops m -> NoDeadLoops m -> NoDeadLoops m'.
Proof. unfold shape, fills, NoDeadLoops. intros S N D. injection S as _ _ _ _ _ _ _ _ _ B. congruence. Qed.
(** a live vertex has a live halfedge, so there are halfedges *)
Lemma some_halfedges m : Valid m -> (exists v, liveV m v) -> 0 < nHalfedges m /\ 0 < heFill m.
Proof.
  intros V (v & L). destruct (cn_vh _ (va_cn _ V) v L) as [[R N] _]. split; [|lia]. rewrite (ct_he _ (va_ct _ V)). apply countb_pos with (vh m v); auto.
  apply negb_true_iff, Z.eqb_neq; auto.
Qed.

Lemma target_live m e a : Valid m -> liveH m (eHe e) -> target m e a -> liveH m a.
Proof. intros V Le TG. pose proof (va_cn _ V) as CN. destruct TG as [[_ [[_ ->]|[_ ->]]]|[(_ & _ & ->)|(_ & _ & ->)]]; auto; repeat apply CN; auto. Qed.
(** a legal call does not throw *)
Lemma collapse_legal m e : Valid m -> OpPre m (OCollapse e) -> exists m' r, collapseEdgeTriangular m e = Ok (m', r) /\
  match r with
  | None => m' = m /\ ((~ ext m (tw (eHe e)) /\ onBoundary m (ve m (eHe e)) /\ onBoundary m (ve m (tw (eHe e)))) \/
       exists a, target m e a /\ (linkBad m a \/ boundaryTriangle m a))
  | Some v => exists a, target m e a /\ v = ve m (tw a) /\ ~ linkBad m a /\ ~ boundaryTriangle m a /\
      Valid m' /\ Collapsed m m' a /\ triangular m' /\ (simple m -> simple m')
  end.
Proof.
  intros V (T & NS & Le & TH). pose proof (collapse_final m e V T NS Le) as K. destruct (collapseEdgeTriangular m e) as [[m' r]| |]; [|exfalso|contradiction].
  - exists m', r. split; [reflexivity|]. destruct r; exact K.
  - destruct K as (a & TG & X & TN). destruct TG as [[XE [[_ ->]|[_ ->]]]|[(XE & _ & ->)|(XE & TE & ->)]].
    + destruct (TH XE); auto.
    + destruct (TH XE); auto.
    + exact (X XE).
    + apply X. rewrite <- TE. unfold ext in *. rewrite (cn_fnx _ (va_cn _ V) _ (cn_tw _ (va_cn _ V) _ Le)). exact XE.
Qed.
Lemma ev_collapse m e m' r : collapseEdgeTriangular m e = Ok (m', r) -> Ev m m'.
Proof.
  intros E. destruct (shape_collapse _ _ _ _ E) as [S F]. destruct r as [v|].
  - apply ev_shape; auto. right. apply F. discriminate.
  - assert (m' = m) as -> by (eapply collapse_none; eauto). apply ev_refl.
Qed.
Lemma op_step m o : Valid m -> NoDeadLoops m -> (exists v, liveV m v) -> OpPre m o ->
  exists m', applyOp m o = Ok m' /\ Valid m' /\ NoDeadLoops m' /\ (exists v, liveV m' v) /\ euler m' = euler m /\ nLoops m' = nLoops m.
Proof.
  intros V D (v0 & L0) P. destruct o as [e p|e|a b|e|f|e|v|f|e|e|]; cbn [OpPre applyOp] in *; unfold euler.
  - destruct P as (L & M1 & M2). destruct (flip_spec m e p V L M1 M2) as (m' & ok & E & V' & _ & K1 & K2). exists m'. rewrite E. split; [reflexivity|].
    pose proof (shape_flip _ _ _ _ _ E) as Sh. destruct ok.
    + destruct (K2 eq_refl) as (C & (_ & SV & _) & _). unfold counts in C. injection C as C1 C2 C3 C4 C5 C6. split; auto. split; [eapply noDead_shape; eauto|].
      split; [exists v0; apply SV; auto|]. lia.
    + rewrite (K1 eq_refl). eauto 10.
  - destruct P as (L & M). destruct (insert_spec m e V L M) as (m' & E & V' & C1 & C2 & C3 & C4 & C5 & _ & _ & _ & _ & _ & LV & R).
    exists m'. rewrite E. split; [reflexivity|]. split; auto. split; [|split; [exists v0; apply LV; auto|lia]]. apply R. auto.
  - destruct P as (L1 & L2 & F & X & N1 & N2 & N3). destruct (connect_spec m a b V D L1 L2 F X N1 N2 N3) as (m' & E & V' & D' & C1 & C2 & C3 & C4 & C5 & C6 & _ & _ & _ & _ & _ & LV & _).
    exists m'. rewrite E. split; [reflexivity|]. split; auto. split; auto. split; [exists v0; apply LV; auto|lia].
  - destruct P as (T & L & M1 & M2). destruct (split_spec m e V D T L M1 M2) as (m' & E & V' & D' & _ & C1 & C2 & LV & _ & _ & _ & _ & _ & _ & _ & _ & _ & _ & _ & _ & B1 & B2 & _).
    exists m'. rewrite E. split; [reflexivity|]. split; auto. split; auto. split; [exists v0; apply LV; auto|].
    destruct (Z_le_gt_dec (fFill m) (fa m (tw (eHe e)))) as [X|X].
    + destruct (B1 X) as (K1 & _ & _ & K2 & _). lia.
    + destruct B2 as (K1 & _ & _ & K2 & _); [unfold ext; lia|]. lia.
  - destruct (faceHalfedges_ok m V f (or_introl P)) as (hs & _ & A1 & A2 & A3 & _).
    destruct (insert_vertex_spec m f hs V D P A1 A2 A3) as (m' & E & V' & D' & C1 & C2 & C3 & C4 & C5 & C6 & _ & LV & _).
    exists m'. rewrite E. split; [reflexivity|]. split; auto. split; auto. split; [exists v0; apply LV; auto|lia].
  - destruct P as (L & X & M). destruct (remove_edge_spec m e V L M) as (_ & K1 & K2). destruct (Z.eq_dec (fa m (eHe e)) (fa m (tw (eHe e)))) as [F|F].
    + exists m. rewrite (K1 X F). split; [reflexivity|]. eauto 10.
    + destruct (K2 X F) as (m' & E & V' & C1 & C2 & C3 & C4 & C5 & C6 & D' & _ & LV & _). exists m'. rewrite E. split; [reflexivity|]. split; auto. split; auto.
      split; [exists v0; apply LV; auto|lia].
  - destruct P as (L & X). destruct (remove_vertex_spec m v V L) as (_ & K1 & K2). destruct (simpleStar_dec m v) as [S|S].
    + destruct (vertHalfedges_ok m V v L) as (hs & _ & A1 & A2 & A3 & A4). destruct (K2 X S hs A3 A4) as (m' & E & V' & C1 & C2 & C3 & C4 & C5 & C6 & D' & _ & LV & _).
      exists m'. rewrite E. split; [reflexivity|]. split; auto. split; auto. split; [|lia].
      destruct (cn_vh _ (va_cn _ V) v L) as [Q1 Q2]. exists (ve m (tw (vh m v))). apply LV. split; [apply (cn_ve _ (va_cn _ V)), (cn_tw _ (va_cn _ V)); auto|]. apply (ss_loop _ _ S); auto.
    + exists m. rewrite (K1 X S). split; [reflexivity|]. eauto 10.
  - destruct P as (L & M1 & M2). destruct (faceHalfedges_ok m V f (or_introl L)) as (hs & _ & A1 & A2 & A3 & _).
    assert (H3 : (3 <= length hs)%nat).
    { destruct hs as [|h0 [|h1 [|h2 t]]]; cbn [length]; try lia; exfalso.
      - apply A1; auto.
      - cbn [chain] in A2. apply M1, A2.
      - cbn [chain] in A2. apply M2, A2. }
    destruct (triangulate_spec m f hs V D L A2 A3 H3) as (m' & E & V' & D' & C1 & C2 & C3 & C4 & C5 & C6 & _ & LV & _).
    exists m'. rewrite E. split; [reflexivity|]. split; auto. split; auto. split; [exists v0; apply LV; auto|lia].
  - destruct P as (L & M & X). destruct (switch_spec m e V L M) as (m' & E & (_ & SV & _) & C & _ & _ & _ & _ & V'). exists m'. rewrite E. split; [reflexivity|].
    pose proof (shape_switch _ _ _ E) as Sh. unfold counts in C. injection C as C1 C2 C3 C4 C5 C6. split; auto. split; [eapply noDead_shape; eauto|].
    split; [exists v0; apply SV; auto|lia].
  - destruct (collapse_legal m e V P) as (m' & r & E & K). exists m'. rewrite E. split; [reflexivity|]. destruct r as [v|]; [|destruct K as [-> _]; eauto 10].
    destruct K as (h & TG & -> & _ & _ & V' & C & _). pose proof (shape_collapse _ _ _ _ E) as [Sh _]. pose proof (co_counts _ _ _ C) as Q. cbv zeta in Q.
    split; auto. split; [eapply noDead_shape; eauto; tauto|]. split; [|destruct (fFill m <=? fa m (tw h)); clear -Q; lia].
    destruct P as (_ & NS & Le & _). pose proof (target_live m e h V Le TG) as Lh. exists (ve m (tw h)). apply (co_v _ _ _ C). split; [apply V, V, Lh|]. intros X. apply (NS h Lh). auto.
  - destruct (compressed m) eqn:Cm.
    + exists m. rewrite compress_compressed by auto. eauto 10.
    + destruct (some_halfedges m V (ex_intro _ v0 L0)) as [_ P0]. destruct (compress_spec m V P0 Cm) as (m' & E & V' & CP & _ & C & RN & _).
      exists m'. rewrite E. split; [reflexivity|]. split; auto. unfold counts in C. injection C as C1 C2 C3 C4 C5 C6.
      split; [apply CP|]. split; [exists (newV m v0); apply RN; auto|]. lia.
Qed.

(** ** callbacks *)
Lemma issued_app m m' cbs : cblog m' = rev cbs ++ cblog m -> issued m m' = cbs.
Proof.
  intros E. unfold issued. rewrite E, app_length, firstn_app. replace (length (rev cbs) + length (cblog m) - length (cblog m))%nat with (length (rev cbs)) by lia.
  rewrite firstn_all, Nat.sub_diag. cbn. rewrite app_nil_r, rev_involutive. auto.
Qed.
Lemma mop_eq_compress (o : mop) : {o = OCompress} + {o <> OCompress}.
Proof. destruct o; (left; reflexivity) || (right; discriminate). Qed.
Definition plain (o : mop) : Prop := o <> OCompress.
Lemma op_events m o m' : plain o -> applyOp m o = Ok m' -> Ev m m'.
Proof.
  intros P H. destruct o; cbn [applyOp] in H; try (apply bindE in H as ([m1 r] & H1 & H); injection H as <-).
  - eapply ev_flip; eauto.
  - eapply ev_insertVertexAlongEdge; eauto.
  - eapply ev_connectVertices; eauto.
  - eapply ev_splitEdgeTriangular; eauto.
  - eapply ev_insertVertex; eauto.
  - eapply ev_removeEdge; eauto.
  - eapply ev_removeVertex; eauto.
  - eapply ev_triangulate; eauto.
  - eapply ev_switchHalfedgeSides; eauto.
  - eapply ev_collapse; eauto.
  - exfalso. apply P. reflexivity.
Qed.

Lemma start_step m o : Start m -> OpPre m o -> exists m', applyOp m o = Ok m' /\ Start m' /\ euler m' = euler m /\ nLoops m' = nLoops m.
Proof.
  intros [V D L F] P. destruct (op_step m o V D L P) as (m' & E & V' & D' & L' & X & N). exists m'. split; auto. split; [|auto]. split; auto.
  destruct (mop_eq_compress o) as [->|Q].
  - cbn [applyOp] in E. destruct (compressed m) eqn:Cm.
    + rewrite compress_compressed in E by auto. injection E as <-. auto.
    + destruct (some_halfedges m V L) as [_ P0]. destruct (compress_spec m V P0 Cm) as (m2 & E2 & _ & CP & _). rewrite E2 in E. injection E as ->.
      intros _. destruct CP as [C1 C2 C3 C4]. tauto.
  - pose proof (ev_flag _ _ (op_events m o m' Q E)) as [(K1 & K2 & K3)|K]; intros Cm; [|congruence]. rewrite K1 in Cm. specialize (F Cm).
    unfold counts in K2. unfold fills in K3. injection K2 as ? ? ? ? ? ?. injection K3 as ? ? ? ? ?. lia.
Qed.
Lemma start_run l : forall m, Start m -> OpsPre m l -> exists m', runOps m l = Ok m' /\ Start m' /\ euler m' = euler m /\ nLoops m' = nLoops m.
Proof.
  induction l as [|o t IH]; intros m S P; cbn [OpsPre] in P.
  - exists m. auto.
  - destruct P as [P1 P2]. destruct (start_step m o S P1) as (m1 & E1 & S1 & X1 & N1). destruct (IH m1 S1 (P2 m1 E1)) as (m' & E & S' & X & N).
    exists m'. unfold runOps in *. cbn [foldM]. rewrite E1. cbn [bind]. split; auto. split; auto. split; congruence.
Qed.

(** ** iteration *)
Lemma fill_nonneg m k : Valid m -> 0 <= fillOf m k.
Proof. intros V. destruct (va_st _ V) as [_ _ _ _ _ A B C D]. destruct k; cbn; lia. Qed.
Lemma okay_live m k i : Valid m -> (i < Z.to_nat (fillOf m k))%nat -> okayAt m k i = true <-> liveE m k (Z.of_nat i).
Proof.
  intros V Hi. destruct (va_st _ V) as [_ _ _ _ _ A B C D].
  destruct k; cbn [okayAt liveE fillOf] in *; unfold liveV, liveH, liveF, liveBL, nx, vh, fh, INVALID in *; rewrite ?andb_true_iff, ?negb_true_iff, ?Z.eqb_neq.
  - split; [intros; split; [lia|auto]|tauto].
  - split; [intros; split; [lia|auto]|tauto].
  - assert (X : isLoop m (getZ (heFace m) (Z.of_nat i)) = false <-> ~ getZ (heFace m) (Z.of_nat i) < 0 /\ ~ ext m (Z.of_nat i)) by (unfold isLoop, ext, fa; lia).
    rewrite X. split.
    + intros (H1 & H2 & H3). split; [split; [lia|auto]|auto].
    + intros (H1 & H2). split; [apply H1|]. split; auto. assert (L : liveH m (Z.of_nat i)) by (split; [lia|apply H1]).
      pose proof (cn_fa _ (va_cn _ V) _ L) as [[Q _]|[Q _]]; unfold fa in Q; lia.
  - unfold eHe in *. split; [intros; split; [lia|auto]|tauto].
  - split; [intros; split; [lia|auto]|tauto].
  - split; [intros; split; [lia|auto]|tauto].
Qed.
Lemma filter_map_length {A B} (f : A -> B) p q l : (forall x, In x l -> p x = q (f x)) -> length (filter p l) = length (filter q (map f l)).
Proof.
  induction l as [|x t IH]; intros H; cbn; auto. rewrite <- H by (left; auto). destruct (p x); cbn; rewrite IH; auto; intros; apply H; right; auto.
Qed.
Lemma iterate_count m k : Valid m -> Z.of_nat (length (filter (okayAt m k) (seq 0 (Z.to_nat (fillOf m k))))) = nElements m k.
Proof.
  intros V. destruct (va_ct _ V) as [C1 C2 C3 C4 C5 C6].
  destruct k; cbn [fillOf nElements]; [rewrite C4|rewrite C1|rewrite C2|rewrite C3|rewrite C5|rewrite C6]; unfold countb, zseq; f_equal; apply filter_map_length; intros i Hi; apply in_seq in Hi.
  - reflexivity.
  - reflexivity.
  - cbn [okayAt]. unfold intHb, liveHb, nx, INVALID. destruct (getZ (heNext m) (Z.of_nat i) =? -1) eqn:E; cbn; auto. f_equal.
    assert (L : liveH m (Z.of_nat i)) by (split; [pose proof (st_he _ (va_st _ V)); lia|unfold nx; lia]).
    pose proof (cn_fa _ (va_cn _ V) _ L) as K. unfold isLoop. unfold fa in *. destruct (va_st _ V) as [_ _ _ _ _ _ _ _ D]. destruct K as [[Q _]|[Q _]]; lia.
  - reflexivity.
  - reflexivity.
  - reflexivity.
Qed.
Lemma iterate_mesh m k : Valid m -> exists l, elements m k = Ok l /\ StronglySorted lt l /\ NoDup l /\ Z.of_nat (length l) = nElements m k /\
  forall i, In i l <-> liveE m k (Z.of_nat i).
Proof.
  intros V. destruct (iteration_correct (okayAt m k) (Z.to_nat (fillOf m k))) as (l & E & S & N & I). exists l. split; auto. split; auto. split; auto. split.
  - rewrite <- (iterate_count m k V). unfold elements in E. rewrite iterate_ok in E. injection E as <-. reflexivity.
  - intros i. rewrite I. split.
    + intros [H1 H2]. apply okay_live; auto.
    + intros L. assert (Hi : (i < Z.to_nat (fillOf m k))%nat).
      { destruct (va_st _ V) as [_ _ _ _ _ A B C D]. destruct k; cbn [liveE fillOf] in *; unfold liveV, liveH, liveF, liveBL, eHe in L; lia. }
      split; auto. apply okay_live; auto.
Qed.

(** ** containers *)
Lemma dataAt_nth {T} (d : mdata T) i x : 0 <= i -> dataAt d i = Ok x <-> nth_error (dat d) (Z.to_nat i) = Some x.
Proof.
  intros H. unfold dataAt, md_get, rd. rewrite (proj2 (Z.ltb_ge _ _)) by lia. destruct (nth_error (dat d) (Z.to_nat i)); split; congruence.
Qed.
Lemma dataAt_eq {T} (d d' : mdata T) i j : 0 <= i -> 0 <= j -> nth_error (dat d) (Z.to_nat i) = nth_error (dat d') (Z.to_nat j) -> dataAt d i = dataAt d' j.
Proof. intros Hi Hj E. unfold dataAt, md_get, rd. rewrite !(proj2 (Z.ltb_ge _ _)) by lia. rewrite E. reflexivity. Qed.
Lemma fits_use {T} m k (d : mdata T) : Valid m -> Fits m k d -> fillOf m k <= Z.of_nat (length (dat d)).
Proof. intros V [F _ _]. destruct (va_st _ V) as [_ _ _ _ _ A B C D]. destruct k; cbn [fillOf capacity maxSize] in *; lia. Qed.

Lemma data_plain T m o m' k (d : mdata T) : Valid m -> plain o -> applyOp m o = Ok m' -> Fits m k d ->
  exists d', follow k m m' d = Ok d' /\ Fits m' k d' /\ dflt d' = dflt d /\ fillOf m k <= fillOf m' k /\
    (forall i, 0 <= i < fillOf m k -> dataAt d' i = dataAt d i) /\
    (Valid m' -> forall i, fillOf m k <= i < fillOf m' k -> dataAt d' i = Ok (dflt d)).
Proof.
  intros V P E F. pose proof (fill_nonneg m k V) as NN. destruct (op_events m o m' P E) as [M _ (cbs & L & H)]. destruct (H T k d F) as (d' & R & F' & D' & Ln & N & N2).
  pose proof (fits_use m k d V F) as U. exists d'. unfold follow. rewrite (issued_app m m' cbs L). split; auto. split; auto. split; auto. split; [destruct k; cbn; lia|]. split.
  - intros i Hi. apply dataAt_eq; try lia. apply N. lia.
  - intros V' i Hi. apply dataAt_nth; [lia|]. pose proof (fits_use m' k d' V' F'). destruct (Nat.lt_ge_cases (Z.to_nat i) (length (dat d))) as [K|K].
    + rewrite N by auto. apply (ft_free _ _ _ F). lia.
    + apply N2. lia.
Qed.

(** where compress() puts entry i: the loop permutation is applied backwards *)
Definition dataIndex (m : mesh) (k : ekind) (i : Z) : Z := match k with ELoop => nLoops m - 1 - newL m i | _ => newIndex m k i end.
Lemma getZ_nth p j : 0 <= j < zlen p -> nth_error (map Z.to_nat p) (Z.to_nat j) = Some (Z.to_nat (getZ p j)).
Proof.
  unfold zlen, getZ. intros H. rewrite (proj2 (Z.ltb_ge _ _)) by lia. rewrite nth_error_map. rewrite (nth_error_nth' p INVALID) by lia. reflexivity.
Qed.
Lemma permute_data T (d : mdata T) p n g (live : Z -> Prop) :
  (forall j, 0 <= j < zlen p -> exists i, live i /\ j = g i) -> (forall i, live i -> 0 <= g i < zlen p) -> (forall i, live i -> getZ p (g i) = i) ->
  (forall i, live i -> 0 <= i < Z.of_nat (length (dat d))) -> zlen p = n ->
  exists d', md_permute (map Z.to_nat p) d = Ok d' /\ Z.of_nat (length (dat d')) = n /\ dflt d' = dflt d /\ forall i, live i -> dataAt d' (g i) = dataAt d i.
Proof.
  intros H1 H2 H3 H4 H5. destruct (md_permute_ok (map Z.to_nat p) d) as (d' & E & L & D & N).
  - intros i Hi. apply in_map_iff in Hi as (z & <- & Hz). apply In_nth_error in Hz as (q & Hq).
    assert (Q : (q < length p)%nat) by (apply nth_error_Some; congruence). destruct (H1 (Z.of_nat q)) as (i & Li & Eg); [unfold zlen; lia|].
    pose proof (H3 i Li) as K. rewrite <- Eg in K. unfold getZ in K. rewrite (proj2 (Z.ltb_ge _ _)) in K by lia. rewrite Nat2Z.id, (nth_error_nth _ _ _ Hq) in K. subst z. specialize (H4 i Li). lia.
  - exists d'. split; auto. split; [rewrite L, map_length; exact H5|]. split; auto. intros i Li. specialize (H2 i Li). specialize (H4 i Li). apply dataAt_eq; try lia.
    apply N. rewrite getZ_nth by auto. rewrite H3 by auto. reflexivity.
Qed.
Lemma data_compress T m k (d : mdata T) : Valid m -> 0 < heFill m -> compressed m = false -> Fits m k d ->
  exists m' d', compress m = Ok m' /\ follow k m m' d = Ok d' /\ Fits m' k d' /\ dflt d' = dflt d /\ forall i, liveE m k i -> dataAt d' (dataIndex m k i) = dataAt d i.
Proof.
  intros V P C F. destruct (compress_spec m V P C) as (m' & E & V' & CP & _ & CO & RN & ph & pe & pv & pf & pl & CB & Zh & Ze & Zv & Zf & Zl & Gh & Ge & Gv & Gf & Gl).
  exists m'. assert (I : issued m m' = [CbPermute KHalfedge ph; CbPermute KEdge pe; CbPermute KFace pf; CbPermute KLoop pl; CbPermute KVertex pv]) by (apply issued_app; exact CB).
  unfold follow. rewrite I. clear I CB. pose proof (fits_use m k d V F) as U. pose proof (st_f _ (va_st _ V)) as SF. pose proof (st_edge _ (va_st _ V)) as SE. pose proof (st_f _ (va_st _ V')) as SF'.
  destruct CP as [P1 P2 P3 P4 P5 P6 P7 P8]. unfold counts in CO. injection CO as O1 O2 O3 O4 O5 O6. destruct RN as [r1 r2 r3 r4 r5 r6 r7 r8 _ _ _ _ _ _ _ _].
  assert (S : forall p (live : Z -> Prop), (forall i, liveE m k i -> live i) -> (forall i, live i -> 0 <= i < fillOf m k) -> zlen p = fillOf m' k ->
     (forall j, 0 <= j < fillOf m' k -> exists i, live i /\ j = dataIndex m k i) -> (forall i, live i -> 0 <= dataIndex m k i < fillOf m' k) ->
     (forall i, live i -> getZ p (dataIndex m k i) = i) ->
     exists d', md_permute (map Z.to_nat p) d = Ok d' /\ Fits m' k d' /\ dflt d' = dflt d /\ forall i, liveE m k i -> dataAt d' (dataIndex m k i) = dataAt d i).
  { intros p live H0 HL H1 H2 H3 H4. destruct (permute_data T d p (fillOf m' k) (dataIndex m k) live) as (d' & E' & L' & D' & N'); auto.
    - rewrite H1. auto.
    - rewrite H1. auto.
    - intros i Li. specialize (HL i Li). lia.
    - exists d'. split; auto. split; [|auto]. split; [|intros i Hi; lia|lia]. rewrite L'. clear -P1 P2 P3 P4 SF'. destruct k; cbn [fillOf capacity maxSize]; lia. }
  assert (NH : forall i, liveH m i -> 0 <= newH m i < heFill m') by (intros i Li; apply r1 in Li; apply Li).
  assert (SH : forall j, 0 <= j < heFill m' -> exists i, liveH m i /\ j = newH m i) by (intros j Hj; destruct (r5 j (P5 j Hj)) as (i & L & Ei); eauto).
  destruct k; unfold receives; cbn [foldM receive hearsPermute bind]; cbn [fillOf liveE dataIndex newIndex] in *.
  - destruct (S pv (liveV m)) as (d' & E' & K'); auto; [intros i Li; apply Li|lia| | |exists d'; rewrite E'; auto].
    + intros j Hj. destruct (r6 j (P6 j Hj)) as (i & L & Ei); eauto.
    + intros i Li. apply r2 in Li. apply Li.
  - destruct (S ph (liveH m)) as (d' & E' & K'); auto; [intros i Li; apply Li|lia|exists d'; rewrite E'; auto].
  - destruct (S ph (liveH m)) as (d' & E' & K'); auto; [tauto|intros i Li; apply Li|lia|exists d'; rewrite E'; auto].
  - assert (NE2 : forall h, liveH m h -> newH m h = 2 * newE m (h / 2) + h mod 2) by (intros; apply newH_eq; auto).
    pose proof (st_edge _ (va_st _ V')) as SE'. cbn [eHe] in *. unfold eHe in *.
    destruct (S pe (fun e => liveH m (2 * e))) as (d' & E' & K'); auto.
    + intros i Li. destruct Li as [Q _]. lia.
    + lia.
    + intros j Hj. destruct (SH (2 * j)) as (i & Li & Ei); [lia|]. rewrite NE2 in Ei by auto. exists (i / 2). replace (2 * (i / 2)) with i by lia. split; [auto|lia].
    + intros i Li. pose proof (NH _ Li) as Q. rewrite NE2 in Q by auto. replace (2 * i / 2) with i in Q by lia. lia.
    + exists d'. rewrite E'. auto.
  - destruct (S pf (liveF m)) as (d' & E' & K'); auto; [intros i Li; apply Li|lia| | |exists d'; rewrite E'; auto].
    + intros j Hj. destruct (r7 j (P7 j Hj)) as (i & L & Ei); eauto.
    + intros i Li. apply r3 in Li. apply Li.
  - destruct (S pl (liveBL m)) as (d' & E' & K'); auto; [intros i Li; apply Li|lia| | |exists d'; rewrite E'; auto].
    + intros j Hj. destruct (r8 (nLoops m - 1 - j)) as (i & L & Ei); [apply P8; lia|]. exists i. split; auto. lia.
    + intros i Li. apply r4 in Li. destruct Li as [Q _]. lia.
Qed.

Lemma noDead_live m i : Valid m -> NoDeadLoops m -> 0 <= i < bFill m -> liveBL m i.
Proof.
  intros V D Hi. split; auto. unfold NoDeadLoops in D. rewrite (ct_l _ (va_ct _ V)) in D. apply countb_full with (i := i) in D; auto; [|lia].
  unfold liveFb in D. apply negb_true_iff, Z.eqb_neq in D. auto.
Qed.
Lemma op_new_all m o m' : Valid m -> NoDeadLoops m -> plain o -> OpPre m o -> applyOp m o = Ok m' ->
  (forall h, liveH m' h -> liveH m h \/ heFill m <= h) /\ (forall v, liveV m' v -> liveV m v \/ vFill m <= v) /\ (forall f, liveF m' f -> liveF m f \/ fFill m <= f).
Proof.
  intros V D Q P E. assert (FL : (forall f, liveFL m' f -> liveFL m f) -> forall f, liveF m' f -> liveF m f \/ fFill m <= f).
  { intros H f Hf. destruct (H f (or_introl Hf)) as [K|[K _]]; [auto|right]. pose proof (st_f _ (va_st _ V)). lia. }
  destruct o as [e p|e|a b|e|f|e|v|f|e|e|]; cbn [OpPre applyOp] in *.
  - destruct P as (L & M1 & M2). destruct (flip_spec m e p V L M1 M2) as (m2 & ok & E2 & V' & _ & K1 & K2). rewrite E2 in E. injection E as ->. destruct ok.
    + destruct (K2 eq_refl) as (C & (SH & SV & SF) & _). split; [intros h; rewrite SH; auto|]. split; [intros h; rewrite SV; auto|]. apply FL. intros f. apply SF.
    + rewrite (K1 eq_refl). auto.
  - destruct P as (L & M). destruct (insert_spec m e V L M) as (m2 & E2 & V' & C1 & C2 & C3 & C4 & C5 & _ & _ & _ & _ & LH & LV & LF & _). rewrite E2 in E. injection E as ->.
    split; [|split; [|apply FL; intros f; apply LF]].
    + intros h Hh. apply LH in Hh. destruct Hh as [Hh|[->| ->]]; [auto|right; lia|right; lia].
    + intros h Hh. apply LV in Hh. destruct Hh as [Hh| ->]; [auto|right; lia].
  - destruct P as (L1 & L2 & F & X & N1 & N2 & N3). destruct (connect_spec m a b V D L1 L2 F X N1 N2 N3) as (m2 & E2 & V' & D' & C1 & C2 & C3 & C4 & C5 & C6 & _ & _ & _ & _ & LH & LV & LF & _).
    rewrite E2 in E. injection E as ->. split; [|split].
    + intros h Hh. apply LH in Hh. destruct Hh as [Hh|[->| ->]]; [auto|right; lia|right; lia].
    + intros h Hh. apply LV in Hh. auto.
    + intros h Hh. apply LF in Hh. destruct Hh as [Hh| ->]; [auto|right; lia].
  - destruct P as (T & L & M1 & M2). destruct (split_spec m e V D T L M1 M2) as (m2 & E2 & V' & D' & _ & C1 & C2 & LV & _ & _ & _ & _ & _ & _ & _ & _ & _ & _ & _ & _ & B1 & B2 & _).
    rewrite E2 in E. injection E as ->.
    assert (K : (forall h, liveH m' h -> liveH m h \/ heFill m <= h) /\ (forall f, liveF m' f -> liveF m f \/ fFill m <= f)).
    { destruct (Z_le_gt_dec (fFill m) (fa m (tw (eHe e)))) as [X|X].
      + destruct (B1 X) as (_ & _ & _ & _ & LH & LF & _). split.
        * intros h Hh. apply LH in Hh. destruct Hh as [Hh|Hh]; [auto|right; lia].
        * intros h Hh. apply LF in Hh. destruct Hh as [Hh| ->]; [auto|right; lia].
      + destruct B2 as (_ & _ & _ & _ & LH & LF & _); [unfold ext; lia|]. split.
        * intros h Hh. apply LH in Hh. destruct Hh as [Hh|Hh]; [auto|right; lia].
        * intros h Hh. apply LF in Hh. destruct Hh as [Hh|[->| ->]]; [auto|right; lia|right; lia]. }
    destruct K as [K1 K2]. split; auto. split; auto. intros h Hh. apply LV in Hh. destruct Hh as [Hh| ->]; [auto|right; lia].
  - destruct (faceHalfedges_ok m V f (or_introl P)) as (hs & _ & A1 & A2 & A3 & _).
    destruct (insert_vertex_spec m f hs V D P A1 A2 A3) as (m2 & E2 & V' & D' & C1 & C2 & C3 & C4 & C5 & C6 & _ & LV & LH & LF & _). rewrite E2 in E. injection E as ->. split; [|split].
    + intros h Hh. apply LH in Hh. destruct Hh as [Hh|Hh]; [auto|right; lia].
    + intros h Hh. apply LV in Hh. destruct Hh as [Hh| ->]; [auto|right; lia].
    + intros h Hh. apply LF in Hh. destruct Hh as [Hh|Hh]; [auto|right; lia].
  - destruct P as (L & X & M). destruct (remove_edge_spec m e V L M) as (_ & K1 & K2). destruct (Z.eq_dec (fa m (eHe e)) (fa m (tw (eHe e)))) as [F|F].
    + rewrite (K1 X F) in E. injection E as <-. auto.
    + destruct (K2 X F) as (m2 & E2 & V' & C1 & C2 & C3 & C4 & C5 & C6 & D' & LH & LV & LF & _). rewrite E2 in E. injection E as ->.
      split; [intros h Hh; apply LH in Hh; tauto|]. split; [intros h Hh; apply LV in Hh; tauto|]. apply FL. intros f Hf. apply LF in Hf. tauto.
  - destruct P as (L & X). destruct (remove_vertex_spec m v V L) as (_ & K1 & K2). destruct (simpleStar_dec m v) as [S|S].
    + destruct (vertHalfedges_ok m V v L) as (hs & _ & A1 & A2 & A3 & A4). destruct (K2 X S hs A3 A4) as (m2 & E2 & V' & C1 & C2 & C3 & C4 & C5 & C6 & D' & LH & LV & LF & _).
      rewrite E2 in E. injection E as ->.
      split; [intros h Hh; apply LH in Hh; tauto|]. split; [intros h Hh; apply LV in Hh; tauto|]. apply FL. intros f Hf. apply LF in Hf. tauto.
    + rewrite (K1 X S) in E. injection E as <-. auto.
  - destruct P as (L & M1 & M2). destruct (faceHalfedges_ok m V f (or_introl L)) as (hs & _ & A1 & A2 & A3 & _).
    assert (H3 : (3 <= length hs)%nat).
    { destruct hs as [|h0 [|h1 [|h2 t]]]; cbn [length]; try lia; exfalso.
      - apply A1; auto.
      - cbn [chain] in A2. apply M1, A2.
      - cbn [chain] in A2. apply M2, A2. }
    destruct (triangulate_spec m f hs V D L A2 A3 H3) as (m2 & E2 & V' & D' & C1 & C2 & C3 & C4 & C5 & C6 & LH & LV & LF & _). rewrite E2 in E. injection E as ->. split; [|split].
    + intros h Hh. apply LH in Hh. destruct Hh as [Hh|Hh]; [auto|right; lia].
    + intros h Hh. apply LV in Hh. auto.
    + intros h Hh. apply LF in Hh. destruct Hh as [Hh|Hh]; [auto|right; lia].
  - destruct P as (L & M & X). destruct (switch_spec m e V L M) as (m2 & E2 & (SH & SV & SF) & _). rewrite E2 in E. injection E as ->.
    split; [intros h; rewrite SH; auto|]. split; [intros h; rewrite SV; auto|]. apply FL. intros f. apply SF.
  - destruct (collapse_legal m e V P) as (m2 & r & E2 & K). rewrite E2 in E. injection E as ->. destruct r as [v|]; [|destruct K as [-> _]; auto].
    destruct K as (h & _ & _ & _ & _ & _ & C & _). split; [intros x Hx; apply (co_h _ _ _ C) in Hx; tauto|]. split; [intros x Hx; apply (co_v _ _ _ C) in Hx; tauto|].
    intros x Hx. apply (co_f _ _ _ C) in Hx. tauto.
  - exfalso. apply Q. reflexivity.
Qed.
(** elements created by a mutation get slots that were not in use *)
Lemma op_new m o m' k i : Valid m -> NoDeadLoops m -> (exists v, liveV m v) -> plain o -> OpPre m o -> applyOp m o = Ok m' -> k <> ECorner -> liveE m' k i -> liveE m k i \/ fillOf m k <= i.
Proof.
  intros V D Lv Q P E Hk L. 
  destruct k; cbn [liveE fillOf] in *; try (exfalso; apply Hk; reflexivity).
  5: { left. destruct (op_step m o V D Lv P) as (m2 & E2 & _ & D2 & _ & _ & N2). rewrite E2 in E. injection E as ->. apply noDead_live; auto. unfold NoDeadLoops in *. destruct L as [L _]. lia. }
  all: assert (K : (forall h, liveH m' h -> liveH m h \/ heFill m <= h) /\ (forall v, liveV m' v -> liveV m v \/ vFill m <= v) /\ (forall f, liveF m' f -> liveF m f \/ fFill m <= f)) by (eapply op_new_all; eauto);
   destruct K as (K1 & K2 & K3); auto.
  apply K1 in L. unfold eHe in *. pose proof (st_edge _ (va_st _ V)). destruct L as [L|L]; [auto|right; lia].
Qed.

Lemma fits_write T m k (d : mdata T) i x : Valid m -> Fits m k d -> 0 <= i < fillOf m k -> exists d', setAt d i x = Ok d' /\ Fits m k d' /\ dflt d' = dflt d /\
  dataAt d' i = Ok x /\ forall j, 0 <= j -> j <> i -> dataAt d' j = dataAt d j.
Proof.
  intros V F Hi. pose proof (fits_use m k d V F) as U. unfold setAt. rewrite (proj2 (Z.ltb_ge _ _)) by lia. unfold md_put. rewrite wr_Ok by lia. cbn [bind].
  eexists. split; [reflexivity|]. destruct F as [F1 F2 F3]. split; [|split; [reflexivity|split]].
  - split; cbn [dat dflt]; rewrite ?length_upd; auto. intros j Hj. rewrite nth_error_upd_neq by lia. apply F2; auto.
  - apply dataAt_nth; [lia|]. cbn [dat]. apply nth_error_upd_eq. lia.
  - intros j Hj Nj. apply dataAt_eq; try lia. cbn [dat]. apply nth_error_upd_neq. lia.
Qed.
Lemma fits_default T m k (d : mdata T) x : Valid m -> Fits m k d -> 0 < fillOf m k -> exists els, elements m k = Ok els /\
  let d' := md_setDefault els x d in Fits m k d' /\ dflt d' = x /\ forall j, liveE m k j -> dataAt d' j = dataAt d j.
Proof.
  intros V F P. destruct (iterate_mesh m k V) as (els & E & _ & _ & _ & I). exists els. split; auto. cbn zeta. destruct (setDefault_ok els x d) as (A & B & C & D).
  pose proof (fold_max_ge els 0) as [_ M].
  assert (W : forall i, In i els -> (i < Z.to_nat (fillOf m k))%nat).
  { intros i Hi. apply I in Hi. pose proof (va_st _ V) as [_ _ _ _ _ S1 S2 S3 S4]. destruct k; cbn [liveE fillOf] in *; unfold liveV, liveH, liveF, liveBL, eHe in Hi; lia. }
  assert (Mx : (fold_left Nat.max els 0 < Z.to_nat (fillOf m k))%nat).
  { assert (G : forall l a n, (a < n)%nat -> (forall i, In i l -> (i < n)%nat) -> (fold_left Nat.max l a < n)%nat).
    { induction l as [|y t IH]; intros a n Ha Hl; cbn; auto. apply IH; [|intros; apply Hl; right; auto]. pose proof (Hl y (or_introl eq_refl)). lia. }
    apply G; auto. lia. }
  destruct F as [F1 F2 F3]. split; [|split; auto].
  - split; auto; [rewrite B; auto|]. rewrite B, A. intros i Hi. apply D; lia.
  - intros j Lj. assert (Hj : 0 <= j) by (destruct k; cbn [liveE] in Lj; unfold liveV, liveH, liveF, liveBL, eHe in Lj; lia).
    apply dataAt_eq; auto. apply C. apply M. apply I. rewrite Z2Nat.id by auto. exact Lj.
Qed.

Lemma liveE_use m k i : Valid m -> liveE m k i -> 0 <= i < fillOf m k.
Proof. intros V L. pose proof (va_st _ V) as [_ _ _ _ _ S1 S2 S3 S4]. destruct k; cbn [liveE fillOf] in *; unfold liveV, liveH, liveF, liveBL, eHe in L; lia. Qed.
Lemma follows_run T k l : forall m i x j y (d : mdata T), follows k m l i x j y -> Start m -> Fits m k d -> (k = ELoop -> ~ In (DMesh OCompress) l) -> dataAt d i = Ok x ->
  exists m' d', runD k (m, d) l = Ok (m', d') /\ Start m' /\ Fits m' k d' /\ liveE m' k j /\ dataAt d' j = Ok y.
Proof.
  unfold runD. induction l as [|o t IH]; intros m i x j y d H S F KL D; inversion H; subst.
  - exists m, d. auto.
  - rename m' into m1. cbn [foldM applyD]. destruct (start_step m o0 S) as (m2 & E2 & S2 & _); auto. assert (m2 = m1) as -> by congruence. rewrite E2. cbn [bind].
    assert (KL' : k = ELoop -> ~ In (DMesh OCompress) t) by (intros K X; apply (KL K); right; auto).
    pose proof (sr_valid _ S) as V. assert (U : 0 <= i < fillOf m k) by (apply liveE_use; auto).
    destruct (mop_eq_compress o0) as [->|Q].
    + destruct (compressed m) eqn:Cm.
      * assert (m1 = m) as -> by (cbn [applyOp] in E2; rewrite compress_compressed in E2 by auto; congruence).
        assert (Fo : follow k m m d = Ok d) by (unfold follow; rewrite (issued_app m m []); reflexivity). rewrite Fo. cbn [bind].
        apply (IH m (indexAfter m k OCompress i) x); auto. cbn [indexAfter]. rewrite Cm. auto.
      * destruct (some_halfedges m V (sr_some _ S)) as [_ P0]. destruct (data_compress T m k d V P0 Cm F) as (m3 & d3 & E3 & Fo & F3 & _ & N).
        cbn [applyOp] in E2. rewrite E2 in E3. injection E3 as <-. rewrite Fo. cbn [bind]. apply (IH m1 (indexAfter m k OCompress i) x); auto.
        cbn [indexAfter]. rewrite Cm. rewrite <- D, <- N by auto. f_equal. destruct k; try reflexivity. exfalso. apply KL; [auto|left; auto].
    + destruct (data_plain T m o0 m1 k d V Q E2 F) as (d1 & Fo & F1 & _ & _ & N & _). rewrite Fo. cbn [bind]. apply (IH m1 (indexAfter m k o0 i) x); auto.
      replace (indexAfter m k o0 i) with i by (destruct o0; auto; exfalso; apply Q; auto). rewrite N; auto.
  - cbn [foldM applyD]. pose proof (sr_valid _ S) as V. destruct (fits_write T m k d w z V F) as (d1 & E1 & F1 & _ & N1 & N2); auto. rewrite E1. cbn [bind].
    assert (KL' : k = ELoop -> ~ In (DMesh OCompress) t) by (intros K X; apply (KL K); right; auto).
    apply (IH m i (if w =? i then z else x)); auto. destruct (Z.eqb_spec w i) as [->|Nw]; [auto|]. rewrite N2; auto. apply (liveE_use m k); auto.
  - cbn [foldM applyD]. pose proof (sr_valid _ S) as V. destruct (fits_default T m k d z V F) as (els & E1 & F1 & _ & N); auto. rewrite E1. cbn [bind].
    assert (KL' : k = ELoop -> ~ In (DMesh OCompress) t) by (intros K X; apply (KL K); right; auto).
    apply (IH m i x); auto. rewrite N; auto.
Qed.
Lemma fits_new T m k (x : T) : Valid m -> Fits m k (newData m k x).
Proof.
  intros V. pose proof (va_st _ V) as [_ _ _ _ _ S1 S2 S3 S4]. unfold newData, md_new. split; cbn [dat dflt]; rewrite ?repeat_length.
  - destruct k; cbn [capacity maxSize]; lia.
  - intros i Hi. apply nth_error_repeat. lia.
  - lia.
Qed.

(** ** counts *)
Lemma live_count m k ls : Valid m -> NoDup ls -> (forall i, In i ls <-> liveE m k i) -> Z.of_nat (length ls) = nElements m k.
Proof.
  intros V N H. destruct (iterate_mesh m k V) as (l & _ & _ & N2 & <- & I). f_equal. rewrite <- (map_length Z.of_nat l).
  assert (Nm : NoDup (map Z.of_nat l)) by (apply FinFun.Injective_map_NoDup; auto; intros a b; lia).
  assert (M : forall i, In i (map Z.of_nat l) <-> In i ls).
  { intros i. rewrite H, in_map_iff. split.
    - intros (j & <- & Hj). apply I; auto.
    - intros L. exists (Z.to_nat i). pose proof (liveE_use m k i V L). split; [lia|]. apply I. rewrite Z2Nat.id by lia. auto. }
  apply Nat.le_antisymm; apply NoDup_incl_length; auto; intros i Hi; apply M; auto.
Qed.
Lemma countb_split p q n : (forall i, p i = true -> q i = true) -> countb q n = countb p n + countb (fun i => q i && negb (p i)) n.
Proof.
  intros H. destruct (Z_le_gt_dec n 0) as [L|L]; [rewrite !countb_0; lia|]. assert (0 <= n) as Hn by lia. clear L. revert n Hn.
  apply (Z_ind_nonneg (fun n => countb q n = countb p n + countb (fun i => q i && negb (p i)) n)).
  - rewrite !countb_0; lia.
  - intros k Hk IH. rewrite !countb_S, IH by lia. pose proof (H k). destruct (p k), (q k); cbn; lia.
Qed.
Lemma ext_count m ls : Valid m -> NoDup ls -> (forall h, In h ls <-> liveH m h /\ ext m h) -> Z.of_nat (length ls) = nExterior m.
Proof.
  intros V N H. unfold nExterior. rewrite (ct_he _ (va_ct _ V)), (ct_int _ (va_ct _ V)).
  rewrite (countb_split (intHb m) (liveHb m)) by (unfold intHb; intros i E; apply andb_prop in E; tauto).
  replace (countb (intHb m) (heFill m) + countb (fun i => liveHb m i && negb (intHb m i)) (heFill m) - countb (intHb m) (heFill m)) with (countb (fun i => liveHb m i && negb (intHb m i)) (heFill m)) by lia.
  unfold countb. f_equal. assert (N2 : NoDup (filter (fun i => liveHb m i && negb (intHb m i)) (zseq (heFill m)))) by (apply NoDup_filter, zseq_NoDup).
  assert (M : forall i, In i (filter (fun i => liveHb m i && negb (intHb m i)) (zseq (heFill m))) <-> In i ls).
  { intros i. rewrite H, filter_In, zseq_In. unfold liveH, ext, intHb, liveHb. destruct (nx m i =? -1) eqn:E; cbn.
    - split; [intros [_ X]; discriminate|lia].
    - rewrite negb_involutive. split; [intros [X Y]; split; [split|]; lia|intros [[X Y] Z]; lia]. }
  apply Nat.le_antisymm; apply NoDup_incl_length; auto; intros i Hi; apply M; auto.
Qed.
Lemma start_history m l : Start m -> OpsPre m l -> exists m', runOps m l = Ok m' /\ Start m' /\ eulerCharacteristic m' = eulerCharacteristic m /\ genus m' = genus m /\ nLoops m' = nLoops m.
Proof.
  intros S P. destruct (start_run l m S P) as (m' & E & S' & X & N). exists m'. split; auto. split; auto. assert (C : eulerCharacteristic m' = eulerCharacteristic m) by (unfold eulerCharacteristic, euler in *; lia).
  split; auto. split; auto. unfold genus. rewrite C, N. reflexivity.
Qed.
Lemma flag_live m : Start m -> compressed m = true -> forall k i, 0 <= i < fillOf m k -> k <> ECorner -> liveE m k i.
Proof.
  intros [V D _ F] C k i Hi Hk. destruct (F C) as (F1 & F2 & F3 & F4 & F5). pose proof (va_ct _ V) as [C1 _ C3 C4 C5 C6].
  destruct k; cbn [liveE fillOf] in *; try (exfalso; apply Hk; reflexivity).
  - rewrite C4 in F3. apply countb_full with (i := i) in F3; auto; [|lia]. split; auto. unfold liveVb in F3. lia.
  - rewrite C1 in F1. apply countb_full with (i := i) in F1; auto; [|lia]. split; auto. unfold liveHb in F1. lia.
  - rewrite C3 in F2. apply countb_full with (i := i) in F2; auto; [|lia]. pose proof (st_edge _ (va_st _ V)). unfold eHe. split; [lia|]. unfold liveHb in F2. lia.
  - rewrite C5 in F4. apply countb_full with (i := i) in F4; auto; [|lia]. split; auto. unfold liveFb in F4. lia.
  - apply noDead_live; auto.
Qed.

Lemma mutation_data T m o k (d : mdata T) : Start m -> OpPre m o -> o <> OCompress -> Fits m k d ->
  exists m' d', applyD k (m, d) (DMesh o) = Ok (m', d') /\ Start m' /\ Fits m' k d' /\ dflt d' = dflt d /\
    (forall i, liveE m k i -> dataAt d' i = dataAt d i) /\
    (forall i, k <> ECorner -> liveE m' k i -> ~ liveE m k i -> dataAt d' i = Ok (dflt d)) /\
    (forall i, k = ECorner -> liveE m' k i -> ~ liveH m i -> dataAt d' i = Ok (dflt d)).
Proof.
  intros S P Q F. pose proof (sr_valid _ S) as V. destruct (start_step m o S P) as (m' & E & S' & _). pose proof (sr_valid _ S') as V'.
  destruct (data_plain T m o m' k d V Q E F) as (d' & Fo & F' & D' & M & N1 & N2). exists m', d'. cbn [applyD]. rewrite E. cbn [bind]. rewrite Fo. cbn [bind].
  split; auto. split; auto. split; auto. split; auto. split; [|split].
  - intros i L. apply N1. apply liveE_use; auto.
  - intros i K L NL. apply N2; auto. pose proof (liveE_use m' k i V' L). destruct (op_new m o m' k i V (sr_loops _ S) (sr_some _ S) Q P E K L) as [X|X]; [exfalso; auto|lia].
  - intros i -> L NL. apply N2; auto. pose proof (liveE_use m' ECorner i V' L). destruct (op_new m o m' EHalfedge i V (sr_loops _ S) (sr_some _ S) Q P E) as [X|X]; [discriminate|apply L|exfalso; auto|cbn [fillOf] in *; lia].
Qed.
Lemma created_data T m k (x : T) : Valid m -> Fits m k (newData m k x) /\ forall i, liveE m k i -> dataAt (newData m k x) i = Ok x.
Proof.
  intros V. pose proof (fits_new T m k x V) as F. split; auto. intros i L. pose proof (liveE_use m k i V L). pose proof (fits_use m k _ V F) as U. apply dataAt_nth; [lia|].
  unfold newData, md_new in *. cbn [dat] in *. rewrite repeat_length in U. apply nth_error_repeat. lia.
Qed.
Lemma newL_one m i : Valid m -> nLoops m <= 1 -> liveBL m i -> nLoops m - 1 - newL m i = newL m i.
Proof.
  intros V N L. pose proof (ct_l _ (va_ct _ V)) as C. unfold newL. pose proof L as [R X].
  pose proof (countb_lt (fun i => liveFb m (fCap m - 1 - i)) i (bFill m) R) as K. rewrite <- C in K. specialize (K ltac:(unfold liveFb; lia)).
  pose proof (countb_nonneg (fun i => liveFb m (fCap m - 1 - i)) i). lia.
Qed.
Lemma compress_data T m k (d : mdata T) : Start m -> compressed m = false -> Fits m k d -> k <> ELoop \/ nLoops m <= 1 ->
  exists m' d', compress m = Ok m' /\ follow k m m' d = Ok d' /\ Fits m' k d' /\ dflt d' = dflt d /\
    forall i, liveE m k i -> liveE m' k (newIndex m k i) /\ dataAt d' (newIndex m k i) = dataAt d i.
Proof.
  intros S C F K. pose proof (sr_valid _ S) as V. destruct (some_halfedges m V (sr_some _ S)) as [_ P]. destruct (data_compress T m k d V P C F) as (m' & d' & E & Fo & F' & D' & N).
  exists m', d'. split; auto. split; auto. split; auto. split; auto. intros i L. split.
  - destruct (compress_spec m V P C) as (m2 & E2 & V2 & CP & _ & CO & RN & _). rewrite E2 in E. injection E as ->. destruct k; cbn [liveE newIndex] in *.
    + apply RN; auto.
    + apply RN; auto.
    + destruct L as [L X]. split; [apply RN; auto|]. pose proof (rn_side _ _ RN i L) as Sd. unfold side, newSide, ext in *. destruct (Z.leb_spec (fFill m) (fa m i)); [lia|].
      destruct (Z.leb_spec (fFill m') (fa m' (newH m i))); [discriminate|lia].
    + unfold eHe in *. pose proof (rn_h _ _ RN _ L) as Q. rewrite (newH_eq m V) in Q by auto. replace (2 * i / 2) with i in Q by lia. replace (2 * i mod 2) with 0 in Q by lia. rewrite Z.add_0_r in Q. exact Q.
    + apply RN; auto.
    + apply RN; auto.
  - rewrite <- N by auto. f_equal. unfold dataIndex. destruct k; auto. destruct K as [K|K]; [exfalso; auto|]. cbn [newIndex]. symmetry. apply newL_one; auto.
Qed.
Lemma default_data T m k (d : mdata T) x : Start m -> Fits m k d -> 0 < fillOf m k ->
  exists d', applyD k (m, d) (DDefault x) = Ok (m, d') /\ Fits m k d' /\ dflt d' = x /\ forall i, liveE m k i -> dataAt d' i = dataAt d i.
Proof.
  intros S F P. destruct (fits_default T m k d x (sr_valid _ S) F P) as (els & E & F' & D & N). exists (md_setDefault els x d). cbn [applyD]. rewrite E. cbn [bind]. auto.
Qed.
Lemma start_fill m k : Start m -> k <> ELoop -> 0 < fillOf m k.
Proof.
  intros S K. pose proof (sr_valid _ S) as V. destruct (some_halfedges m V (sr_some _ S)) as [_ P]. destruct (sr_some _ S) as (v & L).
  pose proof (st_edge _ (va_st _ V)) as SE. destruct k; cbn [fillOf]; try lia.
  - destruct L as [L _]. lia.
  - destruct (cn_vh _ (va_cn _ V) v L) as [Lh _]. set (h := vh m v) in *. assert (exists g, liveH m g /\ ~ ext m g) as (g & Lg & X).
    { destruct (Z.eq_dec (h mod 2) 0) as [E|E]; [exists h; split; [auto|apply (cn_ebd _ (va_cn _ V)); auto]|].
      exists (tw h). assert (Lt : liveH m (tw h)) by (apply (cn_tw _ (va_cn _ V)); auto). split; auto. apply (cn_ebd _ (va_cn _ V)); auto. unfold tw. destruct (Z.even h) eqn:Ev; [apply Z.even_spec in Ev as [q ->]; lia|lia]. }
    unfold ext in X. pose proof (cn_fa _ (va_cn _ V) g Lg) as [[Q _]|[Q _]]; pose proof (st_f _ (va_st _ V)); lia.
  - exfalso. auto.
Qed.
Lemma binop_mesh A B C (op : A -> B -> C) x m k (l : mdata A) (r : mdata B) : Valid m -> Fits m k l -> Fits m k r -> k <> EFace -> k <> ELoop ->
  exists d, md_binop op x (Z.to_nat (capacity m k)) l r = Ok d /\
    forall i a b, liveE m k i -> dataAt l i = Ok a -> dataAt r i = Ok b -> dataAt d i = Ok (op a b).
Proof.
  intros V [Fl _ _] [Fr _ _] K1 K2. assert (M : maxSize m k = capacity m k) by (destruct k; cbn; auto; exfalso; auto). rewrite M in Fl, Fr.
  destruct (binop_ok op x (Z.to_nat (capacity m k)) l r) as (d & E & _ & N); [lia|lia|]. exists d. split; auto. intros i a b L. pose proof (liveE_use m k i V L).
  unfold dataAt. rewrite (proj2 (Z.ltb_ge _ _)) by lia. apply N.
Qed.
Lemma genus_closed m g : nLoops m = 0 -> euler m = 2 - 2 * g - nLoops m -> genus m = g.
Proof. unfold genus, eulerCharacteristic, euler. intros H E. rewrite H in *. replace (2 - 0 - (nVertices m - nEdges m + (nFaces m + 0))) with (g * 2) by lia. apply Z.quot_mul. lia. Qed.
