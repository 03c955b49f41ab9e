(** Fast marching from beginning to end. *)
From Coq Require Import Reals Lra Permutation.
From Verif Require Import Base DataModel DataSpec DataProofs MeshModel MeshModel2 MeshSpec MeshBase MeshExec MeshOrbit MeshOpSpec MeshFlip MeshDataModel CollapseModel CollapseProofs
  GeoModel GeoVec IntrinsicModel IntrinsicSpec EmbeddedModel FrameModel FieldSpec Intrinsic1 Intrinsic2 Intrinsic3 Intrinsic4 Intrinsic5 Intrinsic6 Intrinsic7 Intrinsic8 Intrinsic9 Field2 Field3 PointModel FastModel FastSpec Fast1 Fast2.
Open Scope R_scope.
Lemma mapM_each {A B} (f : A -> res B) (l : list A) : (forall a, In a l -> exists b, f a = Ok b) -> exists bs, mapM f l = Ok bs /\ forall b, In b bs <-> exists a, In a l /\ f a = Ok b.
Proof.
  induction l as [|a l IH]; intros H; cbn [mapM].
  - exists []. split; auto. intros b. split; [intros []|intros (a & [] & _)].
  - destruct (H a (or_introl eq_refl)) as (b & Eb). destruct IH as (bs & E & I); [intros x Hx; apply H; right; auto|]. rewrite Eb. cbn [bind]. rewrite E. cbn [bind]. exists (b :: bs). split; auto. intros c. cbn. rewrite I. split.
    + intros [<-|(x & Hx & Ex)]; [exists a; auto|exists x; auto].
    + intros (x & [<-|Hx] & Ex); [left; congruence|right; exists x; auto].
Qed.
Lemma lower (l : list entry) : exists c, forall r v, In (r, v) l -> c <= r.
Proof.
  induction l as [|[r v] l (c & H)]; [exists 0; intros r v []|]. exists (Rmin r c). intros r' v' [E|E]; [injection E as <- _; apply Rmin_l|]. apply H in E. pose proof (Rmin_r r c). lra.
Qed.
Section M.
Context (m : mesh) (V : Valid m) (TR : triangular m) (len : mdata R) (MT : Metric m len).
Let CN := va_cn m V.
Lemma pushes_ok p x : onMesh m p -> ~ inFace p -> exists l, pushes m len (p, x) = Ok l /\ forall r v, In (r, v) l <-> startsFrom m len p x v r.
Proof.
  intros O NF. destruct p as [v|e t|f a b c]; cbn in O; [| |destruct (NF I)].
  - exists [(x, v)]. split; auto. intros r w. cbn. split; [intros [E|[]]; injection E; auto|intros [-> ->]; auto].
  - cbn [pushes]. rewrite (vertexOf_live m V) by auto. cbn [bind]. rewrite (vertexOf_live m V) by (apply CN; auto). cbn [bind]. rewrite (dataAt_in 0) by (rewrite (mt_size _ _ MT); apply (e_cap m V); auto). cbn [bind]. eexists. split; [reflexivity|]. intros r w. cbn. unfold valAt.
    split; [intros [E|[E|[]]]; injection E; auto|]. intros [[-> ->]|[-> ->]]; auto.
Qed.
Lemma queue_ok pts : (forall p x, In (p, x) pts -> onMesh m p /\ ~ inFace p) -> exists qs, mapM (pushes m len) pts = Ok qs /\ (forall r v, In (r, v) (rev (concat qs)) <-> starts m len pts v r).
Proof.
  intros H. destruct (mapM_each (pushes m len) pts) as (qs & E & I). { intros [p x] Hp. destruct (H p x Hp) as [O N]. destruct (pushes_ok p x O N) as (l & El & _). eauto. }
  exists qs. split; auto. intros r v. rewrite <- in_rev, in_concat. split.
  - intros (l & Hl & Hr). apply I in Hl as ([p x] & Hp & Ep). destruct (H p x Hp) as [O N]. destruct (pushes_ok p x O N) as (l' & El & Il). assert (l' = l) as -> by congruence. exists p, x. split; auto. apply Il. auto.
  - intros (p & x & Hp & S). destruct (H p x Hp) as [O N]. destruct (pushes_ok p x O N) as (l & El & Il). exists l. split; [apply I; exists (p, x); auto|apply Il; auto].
Qed.
Lemma starts_live pts v r : (forall p x, In (p, x) pts -> onMesh m p /\ ~ inFace p) -> starts m len pts v r -> liveV m v.
Proof.
  intros H (p & x & Hp & S). destruct (H p x Hp) as [O N]. destruct p as [w|e t|f a b c]; cbn in *; [destruct S as [-> _]; auto| |tauto]. destruct S as [[-> _]|[-> _]]; apply CN; auto. apply CN; auto.
Qed.
Lemma count_live : length (zl m EVertex) = Z.to_nat (nVertices m).
Proof. unfold zl. rewrite map_length. destruct (els_ok m EVertex V) as (_ & _ & E & _). cbn [nElements] in E. lia. Qed.
(** from any entries *)
Lemma fmm_core pick curves angles qs : cornerAngles m len = Ok angles -> leastPick pick -> mapM (pushes m len) (concat curves) = Ok qs -> (forall r v, In (r, v) (concat qs) -> liveV m v) ->
  exists n d, (forall fuel, (n <= fuel)%nat -> fmmDistance fuel pick m len angles curves = Some (Ok d)) /\
    let from v r := In (r, v) (concat qs) in let source v := exists r, from v r in
    (forall v, source v -> exists r, d v = Some r /\ from v r /\ forall r', from v r' -> r <= r') /\
    (forall h a, liveH m h -> d (ve m h) = Some a -> ~ source (ve m (tw h)) -> exists b, d (ve m (tw h)) = Some b /\ b <= a + lh len h) /\
    (forall v b, ~ source v -> d v = Some b -> explained m len d v b) /\
    (forall v, liveV m v -> ((exists b, d v = Some b) <-> exists u, source u /\ walk m u v)).
Proof.
  intros EA PK EQ LQ. set (q := rev (concat qs)) in *. assert (IQ : forall r v, In (r, v) q <-> In (r, v) (concat qs)) by (intros r v; unfold q; symmetry; apply in_rev). set (src := fun v => existsb (fun e : entry => (snd e =? v)%Z) q).
  assert (SRC : forall v, src v = true <-> exists r, In (r, v) q). { intros v. unfold src. rewrite existsb_exists. split; [intros ([r w] & Hr & E); apply Z.eqb_eq in E; cbn in E; subst; eauto|intros (r & Hr); exists (r, v); split; auto; apply Z.eqb_refl]. }
  assert (LIVE : forall r v, In (r, v) q -> liveV m v) by (intros r v Hr; apply IQ in Hr; eauto).
  destruct (lower q) as (c0 & Hc). set (s0 := mkSearch (fun _ => None) (fun _ => false) q 0).
  assert (I0 : Inv m len src q s0 c0 (fun u => sFin s0 u = true)).
  { constructor; cbn; try discriminate.
    - intros r v Hr. split; [eapply LIVE; eauto|eapply Hc; eauto].
    - intros v _ Hs r Hr. assert (src v = true) by (apply SRC; eauto). congruence.
    - intros v Hs _. split; auto. tauto.
    - exists []. split; [constructor|]. split; auto. intros v. split; [intros []|discriminate]. }
  destruct (loop_ok m V TR len MT angles EA src q SRC LIVE pick PK _ _ s0 c0 I0 (Nat.le_refl _) (Nat.le_refl _)) as (n & s & cur & R & I & D).
  assert (DONE : forall v, liveV m v -> src v = true \/ (exists b, sDist s v = Some b) -> sFin s v = true).
  { intros v Lv Hv. destruct (sFin s v) eqn:F; auto. destruct D as [D|D].
    - destruct (iv_cnt _ _ _ _ _ _ _ I) as (l & ND & Il & Cl). rewrite <- F, <- Il. apply (NoDup_length_incl ND (l' := zl m EVertex)); [rewrite count_live; lia| |apply (zl_In m V EVertex); auto]. intros w Hw. apply (zl_In m V EVertex). apply Il in Hw. apply (iv_fin _ _ _ _ _ _ _ I) in Hw. apply Hw.
    - destruct (src v) eqn:Sv; [destruct (iv_src _ _ _ _ _ _ _ I v Sv F) as [_ Q]; apply SRC in Sv as (r & Hr); apply Q in Hr; rewrite D in Hr; destruct Hr|]. pose proof (iv_open _ _ _ _ _ _ _ I v F Sv) as Q. destruct Hv as [Hv|(b & Eb)]; [congruence|]. rewrite Eb, D in Q. destruct Q as [[] _]. }
  exists n, (sDist s). split. { intros fuel Hf. assert (X : fmmDistance fuel pick m len angles curves = match searchLoop m len angles src fuel pick s0 with Some r => Some (let* s := r in Ok (sDist s)) | None => None end) by (unfold fmmDistance; rewrite EQ; reflexivity). rewrite X, (R fuel Hf). reflexivity. }
  intros from source. assert (SS : forall v, source v <-> src v = true) by (intros v; rewrite SRC; unfold source, from; split; intros (r & Hr); exists r; apply IQ; auto).
  assert (SL : forall v, src v = true -> liveV m v) by (intros v Hv; apply SRC in Hv as (r & Hr); eauto).
  assert (REL : forall h a, liveH m h -> sDist s (ve m h) = Some a -> src (ve m (tw h)) = false -> exists b, sDist s (ve m (tw h)) = Some b /\ b <= a + lh len h).
  { intros h a Lh Ea Hs. destruct (iv_rel _ _ _ _ _ _ _ I h Lh) as (a' & b & A & B & C); auto; [apply DONE; eauto; apply CN; auto|]. exists b. split; auto. assert (a' = a) by congruence. subst. auto. }
  split; [|split; [|split]].
  - intros v Hs. apply SS in Hs. destruct (iv_srcf _ _ _ _ _ _ _ I v Hs) as (r & A & B & C); [apply DONE; auto|]. exists r. split; auto. split; [apply IQ; auto|]. intros r' Hr. apply C, IQ. auto.
  - intros h a Lh Ea Ns. apply REL; auto. destruct (src (ve m (tw h))) eqn:E; auto. destruct Ns. apply SS. auto.
  - intros v b Ns E. assert (src v = false) by (destruct (src v) eqn:Q; auto; destruct Ns; apply SS; auto). apply (explained_grows _ _ (finDist s)); [|eapply (iv_exp _ _ _ _ _ _ _ I); eauto]. intros u x Q. unfold finDist in Q. destruct (sFin s u); congruence.
  - intros v Lv. split; [intros (b & Eb); destruct (iv_walk _ _ _ _ _ _ _ I v b Eb) as (u & Su & W); exists u; split; auto; apply SS; auto|]. intros (u & Su & W). apply SS in Su. assert (SD : forall w, src w = true -> exists b, sDist s w = Some b) by (intros w Hw; destruct (iv_srcf _ _ _ _ _ _ _ I w Hw) as (r & A & _); [apply DONE; auto|]; eauto).
    clear Lv. induction W as [|h W IH Lh]; [auto|]. destruct IH as (a & Ea). destruct (src (ve m (tw h))) eqn:E; auto. destruct (REL h a Lh Ea E) as (b & Eb & _). eauto.
Qed.
Lemma fmm_main pick curves angles : cornerAngles m len = Ok angles -> leastPick pick -> (forall p x, In (p, x) (concat curves) -> onMesh m p /\ ~ inFace p) ->
  exists n d, (forall fuel, (n <= fuel)%nat -> fmmDistance fuel pick m len angles curves = Some (Ok d)) /\
    let from := starts m len (concat curves) in let source v := exists r, from v r in
    (forall v, source v -> exists r, d v = Some r /\ from v r /\ forall r', from v r' -> r <= r') /\
    (forall h a, liveH m h -> d (ve m h) = Some a -> ~ source (ve m (tw h)) -> exists b, d (ve m (tw h)) = Some b /\ b <= a + lh len h) /\
    (forall v b, ~ source v -> d v = Some b -> explained m len d v b) /\
    (forall v, liveV m v -> ((exists b, d v = Some b) <-> exists u, source u /\ walk m u v)).
Proof.
  intros EA PK H. destruct (queue_ok (concat curves) H) as (qs & EQ & IQ). assert (IQ' : forall r v, In (r, v) (concat qs) <-> starts m len (concat curves) v r) by (intros r v; rewrite <- IQ; apply in_rev).
  destruct (fmm_core pick curves angles qs EA PK EQ) as (n & d & R & A & B & C & D); [intros r v Hr; apply IQ' in Hr; eapply starts_live; eauto|]. exists n, d. split; auto. intros from source.
  assert (SS : forall v, source v <-> exists r, In (r, v) (concat qs)) by (intros v; unfold source, from; split; intros (r & Hr); exists r; apply IQ'; auto).
  split; [|split; [|split]].
  - intros v Hs. apply SS in Hs. destruct (A v Hs) as (r & A1 & A2 & A3). exists r. split; auto. split; [apply IQ'; auto|]. intros r' Hr. apply A3, IQ'. auto.
  - intros h a Lh Ea Ns. apply B; auto. rewrite <- SS. auto.
  - intros v b Ns. apply C. rewrite <- SS. auto.
  - intros v Lv. rewrite (D v Lv). split; intros (u & Su & W); exists u; split; auto; apply SS; auto.
Qed.
Lemma face_pushes f u v w x : liveF m f -> let h := fh m f in let lAB2 := lh len h * lh len h in let lBC2 := lh len (nx m h) * lh len (nx m h) in let lCA2 := lh len (nx m (nx m h)) * lh len (nx m (nx m h)) in
  pushes m len (PFace f u v w, x) = Ok [(x + sqrt (lAB2 * (v * (1 - u)) + lCA2 * (w * (1 - u)) - lAB2 * v * w), ve m h); (x + sqrt (lAB2 * (u * (1 - v)) + lBC2 * (w * (1 - v)) - lCA2 * u * w), ve m (nx m h)); (x + sqrt (lCA2 * (u * (1 - w)) + lBC2 * (v * (1 - w)) - lBC2 * u * v), ve m (nx m (nx m h)))].
Proof.
  intros Lf. destruct (fh_int m V f Lf) as [[L0 _] _]. assert (L1 : liveH m (nx m (fh m f))) by (apply CN; auto). assert (L2 : liveH m (nx m (nx m (fh m f)))) by (apply CN; auto). cbv zeta. cbn [pushes]. rewrite fHe_ok by (destruct Lf; destruct (va_st _ V); lia). cbn [bind].
  rewrite (next_live m V (fh m f)) by auto. cbn [bind]. rewrite (next_live m V) by auto. cbn [bind]. rewrite !(vertexOf_live m V) by auto. cbn [bind]. rewrite !(len_at m V len MT) by auto. reflexivity.
Qed.
End M.
