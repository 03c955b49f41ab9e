From Coq Require Import Sorted.
From Verif Require Import Base MeshModel MeshSpec MeshBase MeshExec MeshOrbit MeshOpSpec MeshThms MeshSplit MeshEvents MeshHistorySpec MeshHistory DataModel DataProofs MeshDataModel
  DisjointSetsModel DisjointSetsSpec DisjointSetsProofs MeshBuildModel CountModel CountSpec.
Open Scope Z_scope.

(** ** numbering of the vertices *)
Lemma filter_position (p : nat -> bool) n e : (e < n)%nat -> p e = true -> nth_error (filter p (seq 0 n)) (length (filter p (seq 0 e))) = Some e.
Proof.
  intros H P. replace n with (e + (1 + (n - e - 1)))%nat by lia. rewrite seq_app, filter_app, nth_error_app2 by lia. rewrite Nat.sub_diag. cbn [Nat.add seq filter]. rewrite P. reflexivity.
Qed.
Definition rk (m : mesh) (v : Z) : nat := Z.to_nat (rankV m v).
Lemma els_pos m v els : elements m EVertex = Ok els -> liveV m v -> nth_error els (rk m v) = Some (Z.to_nat v).
Proof.
  intros E [L1 L2]. unfold elements in E. rewrite iterate_ok in E. injection E as <-. cbn [fillOf].
  replace (rk m v) with (length (filter (okayAt m EVertex) (seq 0 (Z.to_nat v)))).
  - apply filter_position; [lia|]. unfold okayAt. rewrite Z2Nat.id by lia. unfold vh, INVALID in *. lia.
  - unfold rk, rankV, countb, zseq. rewrite Nat2Z.id. symmetry. rewrite <- (filter_map_length Z.of_nat (okayAt m EVertex)); auto.
Qed.
Lemma vertexIndices_ok m : Valid m -> exists ind els, vertexIndices m = Ok ind /\ elements m EVertex = Ok els /\ length els = Z.to_nat (nVertices m) /\ NoDup els /\
  (forall v, liveV m v -> dataAt ind v = Ok (rk m v) /\ nth_error els (rk m v) = Some (Z.to_nat v)) /\ (forall i, In i els <-> liveV m (Z.of_nat i)).
Proof.
  intros V. destruct (iterate_mesh m EVertex V) as (els & E & _ & ND & C & I). cbn [liveE nElements] in *.
  destruct (indices_ok (Z.to_nat (vCap m)) els ND) as (ind & E2 & L & K).
  { intros e He. apply I in He as [He _]. pose proof (st_v _ (va_st _ V)). lia. }
  exists ind, els. unfold vertexIndices. rewrite E. cbn [bind]. rewrite E2. split; [auto|]. split; [auto|]. split; [lia|]. split; [auto|]. split; auto.
  intros v Lv. pose proof (els_pos m v els E Lv) as P. split; auto. unfold dataAt. rewrite (proj2 (Z.ltb_ge _ _)) by (destruct Lv; lia). apply K. exact P.
Qed.

(** ** connected components *)
Lemma foldM_merges n (f : dsets -> nat -> res dsets) (g : nat -> nat * nat) es : forall ms s, Repr n ms s ->
  (forall e, In e es -> (fst (g e) <= n)%nat /\ (snd (g e) <= n)%nat) -> (forall s e, In e es -> f s e = ds_merge s (fst (g e)) (snd (g e))) ->
  exists s' ms', foldM f es s = Ok s' /\ Repr n ms' s' /\ forall p, In p ms' <-> In p ms \/ In p (map g es).
Proof.
  induction es as [|e t IH]; intros ms s R B F; cbn [foldM map].
  - exists s, ms. split; [reflexivity|]. split; auto. intros p. cbn. tauto.
  - rewrite F by (left; auto). destruct (B e (or_introl eq_refl)) as [B1 B2]. destruct (Repr_merge n ms s _ _ R B1 B2) as (s1 & E1 & R1). rewrite E1. cbn [bind].
    destruct (IH _ s1 R1) as (s2 & ms2 & E2 & R2 & I2); [intros; apply B; right; auto|intros; apply F; right; auto|]. exists s2, ms2. split; auto. split; auto.
    intros p. rewrite I2. cbn [In]. rewrite <- surjective_pairing. tauto.
Qed.
Lemma insertNew_In r l x : In x (insertNew r l) <-> x = r \/ In x l.
Proof.
  unfold insertNew. destruct (existsb (Nat.eqb r) l) eqn:E; cbn [In]; [|intuition].
  apply existsb_exists in E as (y & Hy & Ey). apply Nat.eqb_eq in Ey. subst y. intuition. subst. auto.
Qed.
Lemma insertNew_NoDup r l : NoDup l -> NoDup (insertNew r l).
Proof.
  intros N. unfold insertNew. destruct (existsb (Nat.eqb r) l) eqn:E; auto. constructor; auto. intros H. apply Bool.not_true_iff_false in E. apply E.
  apply existsb_exists. exists r. split; auto. apply Nat.eqb_refl.
Qed.
Lemma collect_ok n ms l : forall s seen, Repr n ms s -> (forall i, In i l -> (i <= n)%nat) -> NoDup seen -> (forall r, In r seen -> (r <= n)%nat /\ Root (parent s) r r) ->
  exists s' out, foldM collectRoot l (s, seen) = Ok (s', out) /\ Repr n ms s' /\ NoDup out /\ (forall r, In r out -> (r <= n)%nat /\ Root (parent s') r r) /\
    (forall r, In r out -> In r seen \/ exists i, In i l /\ connected ms i r) /\ (forall r, In r seen -> In r out) /\ (forall i, In i l -> exists r, In r out /\ connected ms i r).
Proof.
  induction l as [|i t IH]; intros s seen R B ND RS; cbn [foldM].
  - exists s, seen. split; [reflexivity|]. split; auto. split; auto. split; auto. split; [auto|]. split; [auto|]. intros i [].
  - unfold collectRoot at 1. destruct (Repr_find n ms s i R (B i (or_introl eq_refl))) as (s1 & r & E1 & R1 & Rr & Rr1 & Mono & _). rewrite E1. cbn [bind].
    assert (Hr : (r <= n)%nat) by (destruct R as (S & _); exact (Root_range _ _ _ _ _ S (B i (or_introl eq_refl)) Rr)).
    assert (Fr : Root (parent s1) r r) by (constructor; exact (Root_fix _ _ _ Rr1)).
    destruct (IH s1 (insertNew r seen) R1) as (s2 & out & E2 & R2 & ND2 & RS2 & A & C & D); [intros; apply B; right; auto|apply insertNew_NoDup; auto| |].
    { intros q Hq. apply insertNew_In in Hq as [->|Hq]; auto. destruct (RS q Hq). split; auto. }
    exists s2, out. split; auto. split; auto. split; auto. split; auto.
    assert (Cir : connected ms i r). { destruct R1 as (_ & E & _). apply (E i r r r); auto. apply B; left; auto. }
    split; [|split].
    + intros q Hq. destruct (A q Hq) as [K|(j & Hj & Cj)]; [apply insertNew_In in K as [->|K]; [right; exists i; split; [left; auto|auto]|auto]|right; exists j; split; [right; auto|auto]].
    + intros q Hq. apply C. apply insertNew_In. auto.
    + intros j [->|Hj]; [|apply D; auto]. exists r. split; auto. apply C. apply insertNew_In. auto.
Qed.

Lemma components_ok m : Valid m -> exists n, nConnectedComponents m = Ok n /\ components m n.
Proof.
  intros V. pose proof (va_cn _ V) as CN. destruct (vertexIndices_ok m V) as (ind & els & Ei & Ee & Le & NDe & Kv & Ie). unfold nConnectedComponents. rewrite Ei. cbn [bind].
  destruct (iterate_mesh m EEdge V) as (es & Es & _ & _ & _ & Ies). cbn [liveE] in Ies. rewrite Es. cbn [bind]. set (n := Z.to_nat (nVertices m)) in *.
  set (g := fun e : nat => (rk m (ve m (eHe (Z.of_nat e))), rk m (ve m (tw (eHe (Z.of_nat e)))))).
  assert (Rlt : forall v, liveV m v -> (rk m v < n)%nat). { intros v Lv. rewrite <- Le. apply nth_error_Some. rewrite (proj2 (Kv v Lv)). discriminate. }
  assert (LVE : forall h, liveH m h -> liveV m (ve m h)) by (intros; apply CN; auto).
  destruct (foldM_merges n (mergeEdge m ind) g es [] (ds_init n) (Repr_init n)) as (s & ms & E1 & R1 & I1).
  { intros e He. apply Ies in He. cbn [g fst snd]. assert (liveH m (tw (eHe (Z.of_nat e)))) by (apply CN; auto). split; apply Nat.lt_le_incl, Rlt; auto. }
  { intros s e He. apply Ies in He. unfold mergeEdge. assert (Lt : liveH m (tw (eHe (Z.of_nat e)))) by (apply CN; auto).
    rewrite vertexOf_ok by (apply (liveH_bnd m V); auto). cbn [bind]. rewrite (proj1 (Kv _ (LVE _ He))). cbn [bind].
    rewrite vertexOf_ok by (apply (liveH_bnd m V); auto). cbn [bind]. rewrite (proj1 (Kv _ (LVE _ Lt))). reflexivity. }
  rewrite E1. cbn [bind].
  destruct (collect_ok n ms (seq 0 n) s [] R1) as (s2 & out & E2 & R2 & ND2 & RS2 & A & _ & D); [intros i Hi; apply in_seq in Hi; lia|constructor|intros r []|].
  rewrite E2. cbn [bind]. exists (length out). split; auto.
  set (at_ := fun i => Z.of_nat (nth i els 0%nat)).
  assert (At : forall v, liveV m v -> at_ (rk m v) = v). { intros v Lv. unfold at_. rewrite (nth_error_nth _ _ _ (proj2 (Kv v Lv))). destruct Lv; lia. }
  assert (AtL : forall i, (i < n)%nat -> liveV m (at_ i)) by (intros i Hi; apply Ie; apply nth_In; lia).
  assert (AtI : forall i, (i < n)%nat -> rk m (at_ i) = i).
  { intros i Hi. pose proof (AtL i Hi) as L. pose proof (proj2 (Kv _ L)) as K. assert (Q : nth_error els i = Some (Z.to_nat (at_ i))).
    { unfold at_. rewrite Nat2Z.id. apply nth_error_nth'. lia. }
    apply (proj1 (NoDup_nth_error els) NDe); [apply nth_error_Some; congruence|congruence]. }
  assert (Ims : forall i j, In (i, j) ms -> exists h, liveH m h /\ liveH m (tw h) /\ i = rk m (ve m h) /\ j = rk m (ve m (tw h))).
  { intros i j H. apply I1 in H as [[]|H]. apply in_map_iff in H as (e & E & He). injection E as <- <-. apply Ies in He. eexists. split; [exact He|]. split; [apply CN; auto|auto]. }
  assert (F : forall i j, connected ms i j -> linked m (at_ i) (at_ j)).
  { induction 1 as [i j H|i|i j _ IH|i j k _ IH1 _ IH2]; [|apply rst_refl|apply rst_sym; auto|eapply rst_trans; eauto].
    destruct (Ims _ _ H) as (h & L1 & L2 & -> & ->). rewrite !At by auto. apply rst_step. exists h. auto. }
  assert (B : forall a b, linked m a b -> connected ms (rk m a) (rk m b)).
  { induction 1 as [a b (h & L & <- & <-)|a|a b _ IH|a b c _ IH1 _ IH2]; [|apply rst_refl|apply rst_sym; auto|eapply rst_trans; eauto].
    assert (He : In (Z.to_nat (edge h)) es). { apply Ies. rewrite Z2Nat.id by (destruct L; unfold edge; lia). destruct (edge_eq (eHe (edge h)) h) as [K _]. rewrite edge_eHe in K. destruct (K eq_refl) as [->| ->]; auto. apply CN; auto. }
    assert (Hm : In (g (Z.to_nat (edge h))) ms) by (apply I1; right; apply in_map; auto). unfold g in Hm. rewrite Z2Nat.id in Hm by (destruct L; unfold edge; lia).
    destruct (edge_eq (eHe (edge h)) h) as [K _]. rewrite edge_eHe in K. destruct (K eq_refl) as [Q|Q]; rewrite Q in Hm; [apply rst_step; exact Hm|]. rewrite tw_tw in Hm. apply rst_sym, rst_step. exact Hm. }
  assert (Out : forall r, In r out -> (r < n)%nat).
  { intros r Hr. destruct (A r Hr) as [[]|(i & Hi & C)]. apply in_seq in Hi. destruct (Nat.eq_dec r n) as [->|]; [|pose proof (proj1 (RS2 r Hr)); lia]. exfalso.
    assert (Z : forall x y, connected ms x y -> (x = n <-> y = n)). { induction 1 as [x y H|x|x y _ IH|x y z _ IH1 _ IH2]; try tauto. destruct (Ims _ _ H) as (h & L1 & L2 & -> & ->).
      pose proof (Rlt _ (LVE _ L1)). pose proof (Rlt _ (LVE _ L2)). lia. }
    apply Z in C. lia. }
  exists (map at_ out). split; [apply map_length|]. split; [|split; [|split]].
  - clear -ND2 Out AtI. induction out as [|x t IH]; cbn; constructor.
    + intros H. apply in_map_iff in H as (y & E & Hy). inversion ND2 as [|? ? Nx _]; subst. apply Nx. assert (Q : y = x) by (rewrite <- (AtI x), <- (AtI y), E by (apply Out; cbn; auto); reflexivity). rewrite <- Q. exact Hy.
    + inversion ND2; subst. apply IH; auto. intros; apply Out; right; auto.
  - intros r Hr. apply in_map_iff in Hr as (i & <- & Hi). apply AtL, Out; auto.
  - intros v Lv. destruct (D (rk m v)) as (r & Hr & C); [apply in_seq; pose proof (Rlt v Lv); lia|]. exists (at_ r). split; [apply in_map; auto|]. apply F in C. rewrite At in C by auto. exact C.
  - intros a b Ha Hb C. apply in_map_iff in Ha as (i & <- & Hi), Hb as (j & <- & Hj). f_equal. apply B in C. rewrite !AtI in C by (apply Out; auto).
    destruct R2 as (_ & E & _). destruct (RS2 i Hi) as [Bi Ri], (RS2 j Hj) as [Bj Rj]. apply (E i j i j); auto.
Qed.

(** ** other queries *)
Lemma interior_ok m : Valid m -> exists l, NoDup l /\ (forall v, In v l <-> liveV m v /\ ~ onBoundary m v) /\ nInteriorVertices m = Ok (length l).
Proof.
  intros V. destruct (iterate_mesh m EVertex V) as (vs & E & _ & ND & _ & I). cbn [liveE] in I. unfold nInteriorVertices. rewrite E. cbn [bind].
  assert (L : forall v, In v vs -> liveV m (Z.of_nat v)) by (intros v Hv; apply I; auto).
  assert (G : exists l, NoDup l /\ (forall v, In v l <-> (In v (map Z.of_nat vs)) /\ ~ onBoundary m v) /\ forall k, foldM (fun n v => let* b := vIsBoundary m (Z.of_nat v) in Ok (if negb b then S n else n)) vs k = Ok (k + length l)%nat).
  { clear E I. induction vs as [|v t IH].
    - exists []. split; [constructor|]. split; [cbn; tauto|]. intros k. cbn. f_equal. lia.
    - inversion ND; subst. destruct IH as (l & N1 & I1 & F1); auto; [intros; apply L; right; auto|]. destruct (vertex_boundary m _ V (L v (or_introl eq_refl))) as (b & Eb & Kb & _).
      assert (NI : ~ In (Z.of_nat v) (map Z.of_nat t)). { intros K. apply in_map_iff in K as (w & Ew & Hw). apply Nat2Z.inj in Ew. subst w. auto. }
      destruct b.
      + exists l. split; auto. split.
        * intros w. rewrite I1. cbn [map In]. split; [tauto|]. intros [[<-|K] N]; auto. exfalso. apply N. apply Kb. reflexivity.
        * intros k. cbn [foldM]. rewrite Eb. cbn [bind negb]. apply F1.
      + exists (Z.of_nat v :: l). split; [constructor; auto; rewrite I1; tauto|]. split.
        * intros w. cbn [map In]. rewrite I1. split; [|tauto]. intros [<-|[K N]]; [|tauto]. split; auto. intros K. apply Kb in K. discriminate.
        * intros k. cbn [foldM]. rewrite Eb. cbn [bind negb]. rewrite F1. cbn [length]. f_equal. lia. }
  destruct G as (l & N & I1 & F). exists l. split; auto. split; [|rewrite F; reflexivity]. intros v. rewrite I1. split; intros [H K]; split; auto.
  - apply in_map_iff in H as (w & <- & Hw). auto.
  - destruct H as [H0 H1]. apply in_map_iff. exists (Z.to_nat v). split; [lia|]. apply I. rewrite Z2Nat.id by lia. split; auto.
Qed.

Lemma triangular_ok m : Valid m -> exists b, isTriangular m = Ok b /\ (b = true <-> forall h, liveH m h -> ~ ext m h -> nx m (nx m (nx m h)) = h).
Proof.
  intros V. pose proof (va_cn _ V) as CN. destruct (iterate_mesh m EFace V) as (fs & E & _ & _ & _ & I). cbn [liveE] in I. unfold isTriangular. rewrite E. cbn [bind].
  assert (G : forall l, (forall f, In f l -> liveF m (Z.of_nat f)) -> exists b, allTriangles m l = Ok b /\ (b = true <-> forall f, In f l -> forall h, liveH m h -> fa m h = Z.of_nat f -> nx m (nx m (nx m h)) = h)).
  { induction l as [|f t IH]; intros L; cbn [allTriangles].
    - exists true. split; auto. split; auto. intros _ f [].
    - destruct (cn_fh _ CN (Z.of_nat f)) as [Lh Fh]; [left; apply L; left; auto|]. pose proof (isTriangle_ok m _ V Lh) as T. rewrite Fh in T. rewrite T. cbn [bind].
      assert (K : forall h, liveH m h -> fa m h = Z.of_nat f -> (nx m (nx m (nx m h)) = h <-> nx m (nx m (nx m (fh m (Z.of_nat f)))) = fh m (Z.of_nat f))).
      { intros h Hh Ff. pose proof (isTriangle_ok m h V Hh) as T2. rewrite Ff, T in T2. injection T2 as T2. lia. }
      destruct (Z.eqb_spec (nx m (nx m (nx m (fh m (Z.of_nat f))))) (fh m (Z.of_nat f))) as [Q|Q]; cbn [negb].
      + destruct (IH ltac:(intros; apply L; right; auto)) as (b & Eb & Kb). exists b. split; auto. rewrite Kb. split; intros H f' Hf h Hh Ff; [|apply (H f'); [right; auto|auto|auto]].
        destruct Hf as [<-|Hf]; [apply K; auto|]. apply (H f'); auto.
      + exists false. split; auto. split; [discriminate|]. intros H. exfalso. apply Q. apply (H f); [left; auto|auto|auto]. }
  destruct (G fs) as (b & Eb & Kb); [intros f Hf; apply I; auto|]. exists b. split; auto. rewrite Kb. split; intros H.
  - intros h Lh Nx. pose proof (cn_fa _ CN _ Lh) as Lf. destruct Lf as [Lf|[Lf _]]; [|exfalso; apply Nx; unfold ext; pose proof (st_f _ (va_st _ V)); lia].
    apply (H (Z.to_nat (fa m h))); auto; [apply I; rewrite Z2Nat.id by (destruct Lf; lia); auto|]. destruct Lf; lia.
  - intros f Hf h Lh Fh. apply H; auto. apply I in Hf. unfold ext. destruct Hf. lia.
Qed.

Lemma tip_ok m h : Valid m -> liveH m h -> (let* n := next m h in vertexOf m n) = Ok (ve m (tw h)).
Proof.
  intros V L. pose proof (va_cn _ V) as CN. rewrite next_ok by (apply (liveH_bnd m V); auto). cbn [bind]. rewrite vertexOf_ok by (apply (liveH_bnd m V), CN; auto). rewrite (cn_vnx _ CN) by auto. reflexivity.
Qed.
Lemma connecting_ok m a b : Valid m -> liveV m a -> exists r, connectingEdge m a b = Ok r /\
  (forall e, r = Some e -> liveH m (eHe e) /\ (ve m (eHe e) = a /\ ve m (tw (eHe e)) = b \/ ve m (eHe e) = b /\ ve m (tw (eHe e)) = a)) /\
  (r = None <-> ~ joined m a b).
Proof.
  intros V La. pose proof (va_cn _ V) as CN. unfold connectingEdge. destruct (vertHalfedges_ok m V a La) as (hs & E & _ & _ & _ & R). rewrite E. cbn [bind].
  assert (G : forall l, (forall h, In h l -> liveH m h /\ ve m h = a) -> exists r, connectScan m a b l = Ok r /\
     (forall e, r = Some e -> liveH m (eHe e) /\ (ve m (eHe e) = a /\ ve m (tw (eHe e)) = b \/ ve m (eHe e) = b /\ ve m (tw (eHe e)) = a)) /\ (r = None <-> forall h, In h l -> ve m (tw h) <> b)).
  { induction l as [|h t IH]; intros L; cbn [connectScan].
    - exists None. split; auto. split; [discriminate|]. split; auto.
    - destruct (L h (or_introl eq_refl)) as [Lh Vh]. assert (Lt : liveH m (tw h)) by (apply CN; auto). set (k := eHe (edge h)).
      assert (Kk : k = h \/ k = tw h). { destruct (edge_eq k h) as [K _]. apply K. unfold k. apply edge_eHe. }
      assert (Lk : liveH m k) by (destruct Kk as [->| ->]; auto). assert (Lkt : liveH m (tw k)) by (apply CN; auto).
      assert (O : otherVertex m (edge h) a = Ok (ve m (tw h))).
      { unfold otherVertex. fold k. rewrite vertexOf_ok by (apply (liveH_bnd m V); auto). cbn [bind]. rewrite (tip_ok m k V Lk).
        destruct Kk as [->|Kk]; [rewrite Vh, Z.eqb_refl; auto|]. rewrite Kk, tw_tw, Vh. destruct (Z.eqb_spec (ve m (tw h)) a) as [->|]; auto. }
      rewrite O. cbn [bind]. destruct (Z.eqb_spec (ve m (tw h)) b) as [Q|Q].
      + exists (Some (edge h)). split; auto. split; [|split; [discriminate|intros H; exfalso; apply (H h); [left|]; auto]]. intros e Ee. injection Ee as <-. fold k. split; auto.
        destruct Kk as [->| ->]; rewrite ?tw_tw; auto.
      + destruct (IH ltac:(intros; apply L; right; auto)) as (r & Er & K1 & K2). exists r. split; auto. split; auto. rewrite K2. split; intros H x Hx; [destruct Hx as [<-|Hx]; auto|apply H; right; auto]. }
  destruct (G hs) as (r & Er & K1 & K2); [intros h Hh; apply R; auto|]. exists r. split; auto. split; auto. rewrite K2. split.
  - intros H (h & Lh & Vh & Wh). apply (H h); auto. apply R; auto.
  - intros H h Hh Wh. apply H. apply R in Hh as [Lh Vh]. exists h. auto.
Qed.

(** getFaceVertexList: the faces in order, each from its first halfedge, with the vertices' ranks *)
Lemma mapM_map {A B C} (f : A -> res B) (g : B -> res C) (h : B -> C) l l' : mapM f l = Ok l' -> (forall x, In x l' -> g x = Ok (h x)) -> mapM (fun x => let* y := f x in g y) l = Ok (map h l').
Proof.
  revert l'. induction l as [|x t IH]; intros l' E H; cbn [mapM] in *.
  - injection E as <-. reflexivity.
  - apply bind_Ok_inv in E as (y & Ey & E). apply bind_Ok_inv in E as (ys & Eys & E). injection E as <-. rewrite Ey. cbn [bind]. rewrite H by (left; auto). cbn [bind].
    rewrite (IH ys) by (auto; intros; apply H; right; auto). reflexivity.
Qed.
Lemma vertexOf_all m l : Valid m -> (forall h, In h l -> liveH m h) -> mapM (vertexOf m) l = Ok (map (ve m) l).
Proof.
  intros V. induction l as [|h t IH]; intros L; cbn [mapM map]; auto. rewrite vertexOf_ok by (apply (liveH_bnd m V), L; left; auto). cbn [bind]. rewrite IH by (intros; apply L; right; auto). reflexivity.
Qed.
Lemma face_list_ok m : Valid m -> exists fs hss, elements m EFace = Ok fs /\
  Forall2 (fun f hs => hs <> [] /\ chain (nx m) (fh m (Z.of_nat f)) hs (fh m (Z.of_nat f)) /\ NoDup hs /\ forall h, In h hs <-> liveH m h /\ fa m h = Z.of_nat f) fs hss /\
  faceVertexList m = Ok (map (map (fun h => rk m (ve m h))) hss) /\ getFaceVertexList m = Ok (map (map (ve m)) hss).
Proof.
  intros V. destruct (vertexIndices_ok m V) as (ind & els & Ei & Ee & Le & NDe & Kv & Ie). destruct (iterate_mesh m EFace V) as (fs & E & _ & _ & _ & I). cbn [liveE] in I.
  exists fs.
  unfold faceVertexList, getFaceVertexList. rewrite Ei. cbn [bind]. rewrite E. cbn [bind].
  assert (Q : filter (fun f => negb (getZ (fHalfedge m) f =? INVALID)) (zseq (fFill m)) = map Z.of_nat fs).
  { unfold elements in E. rewrite iterate_ok in E. injection E as <-. unfold zseq, DataSpec.live_list. cbn [fillOf]. clear. induction (seq 0 (Z.to_nat (fFill m))) as [|x t IH]; cbn [map filter okayAt]; auto. destruct (negb (getZ (fHalfedge m) (Z.of_nat x) =? INVALID)); cbn [map]; rewrite IH; auto. }
  rewrite Q. assert (LF : forall f, In f fs -> liveF m (Z.of_nat f)) by (intros f Hf; apply I; auto). clear E I Q. revert LF. induction fs as [|f t IH]; intros LF.
  - exists []. split; auto.
  - destruct IH as (hss & _ & F & E1 & E2); [intros; apply LF; right; auto|]. destruct (faceHalfedges_ok m V (Z.of_nat f)) as (l & El & Nl & Cl & NDl & R); [left; apply LF; left; auto|].
    assert (Ll : forall h, In h l -> liveH m h) by (intros h Hh; apply R; auto). exists (l :: hss). split; auto. split; [constructor; auto|]. cbn [mapM map]. rewrite El. cbn [bind].
    rewrite (mapM_map (vertexOf m) (dataAt ind) (rk m) l (map (ve m) l)); [|apply vertexOf_all; auto|intros x Hx; apply in_map_iff in Hx as (h & <- & Hh); apply Kv; apply V; auto].
    cbn [bind]. rewrite E1, vertexOf_all by auto. cbn [bind]. rewrite E2. cbn [bind]. rewrite map_map. auto.
Qed.
Lemma rk_id m v : Valid m -> nVertices m = vFill m -> liveV m v -> rk m v = Z.to_nat v.
Proof.
  intros V C [L _]. unfold rk, rankV. f_equal. pose proof (st_v _ (va_st _ V)). assert (A : forall i, 0 <= i < vFill m -> liveVb m i = true) by (apply (proj1 (countb_full (liveVb m) (vFill m) ltac:(lia))); rewrite <- C at 2; symmetry; apply V).
  apply (proj2 (countb_full (liveVb m) v ltac:(lia))). intros i Hi. apply A. lia.
Qed.
Lemma face_list_same m : Valid m -> nVertices m = vFill m -> exists ll, faceVertexList m = Ok ll /\ getFaceVertexList m = Ok (map (map Z.of_nat) ll).
Proof.
  intros V C. destruct (face_list_ok m V) as (fs & hss & E & F & E1 & E2). eexists. split; [exact E1|]. rewrite E2. f_equal. rewrite map_map. clear E E1 E2.
  induction F as [|f hs fs hss (_ & _ & _ & R) F IH]; cbn [map]; auto. f_equal; auto. rewrite map_map. apply map_ext_in. intros h Hh. apply R in Hh as [Lh _]. pose proof (cn_ve _ (va_cn _ V) _ Lh) as Lv.
  rewrite rk_id by auto. destruct Lv. lia.
Qed.
Lemma face_list_circulated m : Valid m -> exists fs hss, elements m EFace = Ok fs /\ faceVertexList m = Ok (map (map (fun h => Z.to_nat (rankV m (ve m h)))) hss) /\
  Forall2 (fun f hs => NoDup hs /\ (forall h, In h hs <-> liveH m h /\ fa m h = Z.of_nat f) /\ hd_error hs = Some (fh m (Z.of_nat f)) /\
    (forall i x y, nth_error hs i = Some x -> nth_error hs (S i) = Some y -> y = nx m x)) fs hss.
Proof.
  intros V. destruct (face_list_ok m V) as (fs & hss & E & F & E1 & _). exists fs, hss. split; auto. split; auto. clear E E1. induction F as [|f hs fs hss (N & C & ND & R) F IH]; constructor; auto.
  destruct (chain_steps _ _ _ _ C N) as (A & B & _). auto.
Qed.
From Verif Require Import BuildSpec BuildLink.
Lemma face_list_built polys m : indices polys -> buildMesh polys = Ok m -> exists ll, faceVertexList m = Ok ll /\ map (map Z.of_nat) ll = polys.
Proof.
  intros I B. destruct (build_contents polys m I B) as (V & G & _). destruct (face_list_same m V) as (ll & E1 & E2).
  - unfold buildMesh in B. apply bind_Ok_inv in B as (? & ? & B). apply bind_Ok_inv in B as ([[[? ?] ?] ?] & ? & B). repeat (apply bind_Ok_inv in B as (? & ? & B)). injection B as <-. reflexivity.
  - exists ll. split; auto. congruence.
Qed.
