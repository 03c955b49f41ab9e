(** The polygon constructor, first part: the loop over the faces (manifold_surface_mesh.cpp:78-142). *)
From Coq Require Import ListDec.
From Verif Require Import Base MeshModel MeshSpec MeshBase MeshExec MeshAlloc MeshBuildModel.
Open Scope Z_scope.

(** sizes of the arrays while the faces are being added *)
Record Arr (nV nF : Z) (m : mesh) : Prop := {
  ar_n : zlen (heNext m) = heCap m; ar_ve : zlen (heVertex m) = heCap m; ar_fa : zlen (heFace m) = heCap m;
  ar_cap : heCap m = 2 * eCap m; ar_fill : heFill m = 2 * eFill m; ar_le : 0 <= heFill m <= heCap m;
  ar_nh : nHalfedges m = heFill m; ar_ne : nEdges m = eFill m;
  ar_vh : zlen (vHalfedge m) = nV; ar_fh : zlen (fHalfedge m) = nF;
  ar_nv : nVertices m = nV; ar_nf : nFaces m = nF; ar_nl : nLoops m = 0 }.

(** the halfedges made so far, against the table of created halfedges; [x] is a halfedge about to be entered *)
Record HEs (nV : Z) (x : Z) (m : mesh) (d : dict) : Prop := {
  he_in : forall a b h, In (a, b, h) d -> 0 <= h < heFill m /\ ve m h = a /\ ve m (tw h) = b /\ 0 <= fa m h /\ 0 <= a < nV /\ 0 <= b < nV /\ a <> b;
  he_even : forall h, 0 <= h < heFill m -> h mod 2 = 0 -> h = x \/ In (ve m h, ve m (tw h), h) d;
  he_out : forall h, 0 <= h < heFill m -> ~ In h (map snd d) -> nx m h = -1 /\ fa m h = -1;
  he_tw : forall a b h h', In (a, b, h) d -> In (b, a, h') d -> h' = tw h;
  he_nd : NoDup (map fst d) }.

(** consecutive elements are linked by g *)
Fixpoint linked (g : Z -> Z) (l : list Z) : Prop :=
  match l with
  | x :: ((y :: _) as t) => g x = y /\ linked g t
  | _ => True
  end.

Lemma linked_ext g g' l : (forall x, In x l -> g' x = g x) -> linked g l -> linked g' l.
Proof.
  induction l as [|x [|y t] IH]; auto. intros H [H1 H2]. split; [rewrite H; [auto|left; auto]|]. apply IH; auto. intros z Hz. apply H. right; auto.
Qed.
Lemma linked_snoc g l x y : linked g (l ++ [x]) -> g x = y -> linked g ((l ++ [x]) ++ [y]).
Proof.
  induction l as [|z [|w t] IH]; intros H E.
  - cbn. auto.
  - destruct H as [H _]. cbn. auto.
  - destruct H as [H1 H2]. split; [auto|]. apply (IH H2 E).
Qed.
Lemma linked_ext_snoc g g' l x : NoDup (l ++ [x]) -> (forall z, In z l -> g' z = g z) -> linked g (l ++ [x]) -> linked g' (l ++ [x]).
Proof.
  induction l as [|z [|w t] IH]; intros ND H K.
  - cbn. auto.
  - destruct K as [K _]. cbn. split; [rewrite H by (left; auto); auto|auto].
  - destruct K as [K1 K2]. split; [rewrite H by (left; auto); auto|]. apply IH; auto. inversion ND; auto. intros; apply H; right; auto.
Qed.

Definition hds (l : list (Z * Z * Z)) := map snd l.
(** a finished face *)
Record FaceOk (m : mesh) (f : Z) (l : list (Z * Z * Z)) : Prop := {
  fo_ne : l <> [];
  fo_hd : fh m f = hd (-1) (hds l);
  fo_fa : forall h, In h (hds l) -> fa m h = f;
  fo_lk : linked (nx m) (hds l);
  fo_cl : nx m (last (hds l) (-1)) = hd (-1) (hds l) }.

(** the state inside the loop: faces FS are finished, [cur] are the sides of the current one *)
Record St (nV nF : Z) (m : mesh) (d : dict) (used : list Z) (FS : list (list (Z * Z * Z))) (cur : list (Z * Z * Z)) : Prop := {
  s_arr : Arr nV nF m;
  s_he : HEs nV (-2) m d;
  s_d : d = rev (concat FS ++ cur);
  s_done : forall f l, nth_error FS f = Some l -> FaceOk m (Z.of_nat f) l;
  s_fa : forall h, In h (hds cur) -> fa m h = zlen (map (fun _ => 0) FS);
  s_lk : linked (nx m) (hds cur);
  s_fh : cur <> [] -> fh m (zlen (map (fun _ => 0) FS)) = hd (-1) (hds cur);
  s_ulen : zlen used = nV;
  s_used : forall v, 0 <= v < nV -> (getZ used v = 0 /\ vh m v = -1 /\ forall b h, ~ In (v, b, h) d) \/ (getZ used v = 1 /\ exists b, In (v, b, vh m v) d) }.

Lemma lookup_none d a b : (forall h, ~ In (a, b, h) d) -> lookup d a b = -1.
Proof.
  induction d as [|[[x y] i] t IH]; cbn [lookup]; intros H; [reflexivity|].
  destruct (Z.eqb_spec x a), (Z.eqb_spec y b); cbn [andb]; try (apply IH; intros h K; apply (H h); right; auto).
  subst. exfalso. apply (H i). left; auto.
Qed.
Lemma lookup_some d a b : (forall x y h, In (x, y, h) d -> h <> -1) -> lookup d a b <> -1 -> In (a, b, lookup d a b) d.
Proof.
  induction d as [|[[x y] i] t IH]; cbn [lookup]; intros H K; [contradiction K; reflexivity|].
  destruct (Z.eqb_spec x a), (Z.eqb_spec y b); cbn [andb] in *; subst; [left; auto| | |]; right; apply IH; auto; intros; eapply H; right; eauto.
Qed.
Lemma lookup_key d a b : (forall x y h, In (x, y, h) d -> h <> -1) -> (lookup d a b = -1 <-> ~ In (a, b) (map fst d)).
Proof.
  intros H. split.
  - intros E K. apply in_map_iff in K as ([[x y] h] & E1 & K). cbn in E1. injection E1; intros; subst. revert E.
    clear -H K. induction d as [|[[x y] i] t IH]; cbn [lookup]; intros E; [destruct K|].
    destruct (Z.eqb_spec x a), (Z.eqb_spec y b); cbn [andb] in *; subst; try (destruct K as [K|K]; [congruence|]; apply IH; auto; intros; eapply H; right; eauto).
    eapply (H a b); [left; reflexivity|reflexivity].
  - intros K. apply lookup_none. intros h Hh. apply K. apply in_map_iff. exists (a, b, h). auto.
Qed.
Lemma key_fun (d : dict) a b h h' : NoDup (map fst d) -> In (a, b, h) d -> In (a, b, h') d -> h = h'.
Proof.
  induction d as [|[[x y] i] t IH]; cbn [map fst]; intros ND H H'; [destruct H|]. inversion ND as [|? ? N1 N2]; subst.
  assert (Q : forall g, In (a, b, g) t -> In (a, b) (map fst t)) by (intros g G; apply in_map_iff; exists (a, b, g); auto).
  destruct H as [H|H], H' as [H'|H']; try congruence; eauto.
  - exfalso. apply N1. replace (x, y) with (a, b) by congruence. eauto.
  - exfalso. apply N1. replace (x, y) with (a, b) by congruence. eauto.
Qed.

Lemma HEs_snd nV x m d a b h : HEs nV x m d -> In h (map snd d) -> ve m h = a -> ve m (tw h) = b -> In (a, b, h) d.
Proof.
  intros H K E1 E2. apply in_map_iff in K as ([[p q] g] & E & K). cbn in E. subst g. destruct (he_in _ _ _ _ H _ _ _ K) as (_ & F1 & F2 & _). congruence.
Qed.
Lemma NoDup_snd nV x m d : HEs nV x m d -> NoDup (map snd d).
Proof.
  intros H. pose proof (he_nd _ _ _ _ H) as ND. pose proof (he_in _ _ _ _ H) as K. clear H.
  induction d as [|[[a b] h] t IH]; cbn [map snd fst] in *; [constructor|]. inversion ND as [|? ? N1 N2]; subst. constructor.
  - intros C. apply in_map_iff in C as ([[p q] g] & E & C). cbn in E. subst g. apply N1. apply in_map_iff. exists (p, q, h). split; auto. cbn.
    destruct (K a b h (or_introl eq_refl)) as (_ & E1 & E2 & _). destruct (K p q h (or_intror C)) as (_ & E3 & E4 & _). congruence.
  - apply IH; auto. intros p q g Hg. apply (K p q g). right; auto.
Qed.

(** the halfedge for a side: a new edge, or the other side of an existing one *)
Definition sideHe (m : mesh) (d : dict) (tail tip : Z) : res (mesh * Z) :=
  if lookup d tip tail =? INVALID then
       let* (m, h) := getNewEdgeTriple m false in
       let* m := setNext m h INVALID in let* m := setNext m (tw h) INVALID in
       let* m := setVertex m h tail in let* m := setVertex m (tw h) tip in
       let* m := setFace m h INVALID in let* m := setFace m (tw h) INVALID in
       Ok (m, h)
  else Ok (m, tw (lookup d tip tail)).

Lemma newEdge_ok nV nF m b : Arr nV nF m -> exists m1, getNewEdgeTriple m b = Ok (m1, heFill m) /\ Arr nV nF m1 /\ heFill m1 = heFill m + 2 /\
   vHalfedge m1 = vHalfedge m /\ fHalfedge m1 = fHalfedge m /\
   forall h, 0 <= h < heFill m -> nx m1 h = nx m h /\ ve m1 h = ve m h /\ fa m1 h = fa m h.
Proof.
  intros [A1 A2 A3 A4 A5 A6 A7 A8 A9 A10 A11 A12 A13]. unfold getNewEdgeTriple, growEdges.
  destruct (Z.ltb_spec (heFill m + 1) (heCap m)).
  - unfold guard. destruct (Z.ltb_spec (eFill m) (eCap m)); [|lia]. cbn [bind]. eexists. split; [reflexivity|]. pj.
    split; [split; pj; auto; lia|]. split; [auto|]. split; [auto|]. split; auto.
  - cbn [bind]. pj. eexists. split; [reflexivity|]. pj.
    assert (0 <= heFill m) by lia. assert (0 <= eFill m) by lia.
    split; [split; pj; auto; rewrite ?zlen_resizeZ; lia|]. split; [auto|]. split; [auto|]. split; [auto|].
    intros h Hh. unfold nx, ve, fa. pj. rewrite !getZ_resizeZ; auto; lia.
Qed.

Lemma sideHe_ok nV nF m d a b : Arr nV nF m -> HEs nV (-2) m d -> ~ In (a, b) (map fst d) -> a <> b ->
  exists m1 h, sideHe m d a b = Ok (m1, h) /\ Arr nV nF m1 /\ HEs nV h m1 d /\ 0 <= h < heFill m1 /\ ve m1 h = a /\ ve m1 (tw h) = b /\
    heFill m <= heFill m1 /\ vHalfedge m1 = vHalfedge m /\ fHalfedge m1 = fHalfedge m /\ ~ In h (map snd d) /\
    (forall x, 0 <= x < heFill m -> nx m1 x = nx m x /\ ve m1 x = ve m x /\ fa m1 x = fa m x) /\
    (forall h', In (b, a, h') d -> h' = tw h) /\ (h mod 2 = 0 \/ In (tw h) (map snd d)).
Proof.
  intros A H NK NE. unfold sideHe.
  assert (Hpos : forall x y h, In (x, y, h) d -> h <> -1) by (intros x y h K; apply (he_in _ _ _ _ H) in K; lia).
  destruct (Z.eqb_spec (lookup d b a) INVALID) as [E|E].
  - destruct (newEdge_ok _ _ _ false A) as (m1 & E1 & A1 & F1 & V1 & P1 & O1). rewrite E1. cbn [bind]. clear E1.
    pose proof (ar_fill _ _ _ A). pose proof (ar_le _ _ _ A). pose proof (ar_le _ _ _ A1). destruct A1 as [B1 B2 B3 B4 B5 B6 B7 B8 B9 B10 B11 B12 B13].
    set (n := heFill m) in *. assert (T : tw n = n + 1) by (apply tw_even; lia).
    rewrite T. do 6 step.
    eexists _, n. split; [reflexivity|].
    match goal with |- Arr _ _ ?M /\ _ => set (m2 := M) end.
    assert (XN : forall x, nx m2 x = if x =? n + 1 then -1 else if x =? n then -1 else nx m1 x).
    { intros x. unfold m2. view. reflexivity. }
    assert (XV : forall x, ve m2 x = if x =? n + 1 then b else if x =? n then a else ve m1 x).
    { intros x. unfold m2. view. reflexivity. }
    assert (XF : forall x, fa m2 x = if x =? n + 1 then -1 else if x =? n then -1 else fa m1 x).
    { intros x. unfold m2. view. reflexivity. }
    assert (XA : Arr nV nF m2) by (unfold m2; split; proj; rewrite ?zlen_updZ; auto).
    assert (XO : forall x, 0 <= x < n -> nx m2 x = nx m x /\ ve m2 x = ve m x /\ fa m2 x = fa m x).
    { intros x Hx. rewrite XN, XV, XF. destruct (O1 x Hx) as (Q1 & Q2 & Q3).
      destruct (Z.eqb_spec x (n + 1)); [lia|]. destruct (Z.eqb_spec x n); [lia|]. auto. }
    assert (XL : heFill m2 = n + 2) by (unfold m2; proj; lia).
    assert (HD : forall x, In x (map snd d) -> 0 <= x < n).
    { intros x Hx. apply in_map_iff in Hx as ([[p q] g] & Eg & Hg). cbn in Eg. subst. apply (he_in _ _ _ _ H _ _ _ Hg). }
    assert (NE0 : forall x, x mod 2 = 0 -> 0 <= x < n -> 0 <= tw x < n) by (intros x Hx Hy; rewrite tw_even by auto; lia).
    assert (XW : vHalfedge m2 = vHalfedge m /\ fHalfedge m2 = fHalfedge m) by (split; [rewrite <- V1|rewrite <- P1]; reflexivity).
    clearbody m2.
    split; [exact XA|]. split; [|split; [lia|]]; [|split; [rewrite XV; destruct (Z.eqb_spec n (n + 1)); [lia|]; rewrite Z.eqb_refl; auto|]].
    + split.
      * intros p q h K. destruct (he_in _ _ _ _ H _ _ _ K) as (K1 & K2 & K3 & K4 & K5).
        assert (T1 : 0 <= tw h < n) by (unfold tw; lia).
        destruct (XO h K1) as (_ & Q2 & Q3). destruct (XO _ T1) as (_ & R2 & _). rewrite Q2, R2, Q3. split; [lia|]. auto.
      * intros h Hh Ev. destruct (Z.eq_dec h n); [left; auto|right]. assert (h < n) by lia.
        destruct (he_even _ _ _ _ H h) as [K|K]; [lia|auto|lia|]. destruct (XO h ltac:(lia)) as (_ & Q & _). destruct (XO (tw h)) as (_ & R & _); [apply NE0; auto; lia|]. rewrite Q, R. auto.
      * intros h Hh NI. rewrite XN, XF. destruct (Z.eqb_spec h (n + 1)); [auto|]. destruct (Z.eqb_spec h n); [auto|].
        assert (h < n) by lia. destruct (O1 h ltac:(lia)) as (Q1 & _ & Q3). rewrite Q1, Q3. apply (he_out _ _ _ _ H); [lia|auto].
      * apply (he_tw _ _ _ _ H).
      * apply (he_nd _ _ _ _ H).
    + rewrite T. split; [rewrite XV, Z.eqb_refl; auto|]. split; [lia|].
      split; [apply XW|]. split; [apply XW|].
      split; [intros K; apply HD in K; lia|]. split; [exact XO|].
      split; [intros h' K|left; lia]. exfalso. apply (proj1 (lookup_key d b a Hpos) E). apply in_map_iff. exists (b, a, h'). auto.
  - pose proof (lookup_some _ _ _ Hpos E) as K. set (t := lookup d b a) in *. clearbody t.
    destruct (he_in _ _ _ _ H _ _ _ K) as (K1 & K2 & K3 & K4 & K5 & K6 & K7). pose proof (ar_fill _ _ _ A).
    exists m, (tw t). split; [reflexivity|]. split; [auto|]. split; [|split; [unfold tw; lia|]].
    + destruct H as [H1 H2 H3 H4 H5]. split; auto. intros h Hh Ev. destruct (H2 h Hh Ev); [lia|auto].
    + split; [auto|]. rewrite tw_tw. split; [auto|]. split; [lia|]. split; [auto|]. split; [auto|].
      split.
      { intros C. pose proof (HEs_snd _ _ _ _ a b (tw t) H C K3). rewrite tw_tw in H1. specialize (H1 K2). apply NK. apply in_map_iff. exists (a, b, tw t). auto. }
      split; [auto|]. split.
      { intros h' Q. symmetry. apply (key_fun d b a); auto. apply (he_nd _ _ _ _ H). }
      right. apply in_map_iff. exists (b, a, t). auto.
Qed.

Lemma addSide_unfold iFace m d used prev first tail tip :
  addSide iFace (m, d, used, prev, first) (tail, tip) =
  let* used := wrZ used tail 1 in
  let* _ := guard (negb (tail =? tip)) in
  let* _ := guard (lookup d tail tip =? INVALID) in
  let* (m, h) := sideHe m d tail tip in
  let* m := setFace m h iFace in
  let* m := setVHe m tail h in
  let* m := (if first =? INVALID then setFHe m iFace h else setNext m prev h) in
  Ok (m, (tail, tip, h) :: d, used, h, if first =? INVALID then h else first).
Proof. reflexivity. Qed.

Lemma hds_last l (t : Z * Z * Z) : last (hds (l ++ [t])) (-1) = snd t.
Proof. unfold hds. rewrite map_app. cbn [map]. apply last_last. Qed.
Lemma hds_app l1 l2 : hds (l1 ++ l2) = hds l1 ++ hds l2.
Proof. apply map_app. Qed.
Lemma last_In (l : list Z) x : l <> [] -> In (last l x) l.
Proof. induction l as [|a [|b t] IH]; intros H; [congruence|left; auto|]. right. apply IH. discriminate. Qed.
Lemma hd_app (A : Type) (x : A) l1 l2 : l1 <> [] -> hd x (l1 ++ l2) = hd x l1.
Proof. destruct l1; [congruence|reflexivity]. Qed.
Lemma nth_error_concat {A} (FS : list (list A)) f l x : nth_error FS f = Some l -> In x l -> In x (concat FS).
Proof. intros H K. apply in_concat. exists l. split; auto. eapply nth_error_In; eauto. Qed.

Lemma FaceOk_ext m m' f l : (forall h, In h (hds l) -> nx m' h = nx m h /\ fa m' h = fa m h) -> fh m' f = fh m f -> FaceOk m f l -> FaceOk m' f l.
Proof.
  intros H E [F1 F2 F3 F4 F5]. split; auto.
  - congruence.
  - intros h Hh. destruct (H h Hh). rewrite H1. auto.
  - eapply linked_ext; [|exact F4]. intros x Hx. apply H; auto.
  - destruct (H (last (hds l) (-1))) as [Q _]; [|congruence]. apply last_In. destruct l; [congruence|discriminate].
Qed.

Lemma addSide_ok nV nF m d used FS cur a b iF prev first :
  St nV nF m d used FS cur -> 0 <= a < nV -> 0 <= b < nV -> iF = zlen (map (fun _ => 0) FS) -> iF < nF ->
  prev = last (hds cur) (-1) -> first = hd (-1) (hds cur) ->
  (a <> b /\ ~ In (a, b) (map fst d) -> exists m' used' h,
     addSide iF (m, d, used, prev, first) (a, b) = Ok (m', (a, b, h) :: d, used', last (hds (cur ++ [(a, b, h)])) (-1), hd (-1) (hds (cur ++ [(a, b, h)]))) /\
     St nV nF m' ((a, b, h) :: d) used' FS (cur ++ [(a, b, h)])) /\
  (~ (a <> b /\ ~ In (a, b) (map fst d)) -> addSide iF (m, d, used, prev, first) (a, b) = Throw).
Proof.
  intros S Ha Hb EF HF EP E1. rewrite addSide_unfold.
  assert (Hpos : forall x y h, In (x, y, h) d -> 0 <= h) by (intros x y h K; apply (he_in _ _ _ _ (s_he _ _ _ _ _ _ _ S)) in K; lia).
  assert (Hpos' : forall x y h, In (x, y, h) d -> h <> -1) by (intros x y h K; apply Hpos in K; lia).
  rewrite wrZ_ok by (rewrite (s_ulen _ _ _ _ _ _ _ S); auto). cbn [bind].
  destruct (Z.eqb_spec a b) as [->|NE]; cbn [negb guard bind]; [split; [tauto|auto]|].
  destruct (Z.eqb_spec (lookup d a b) INVALID) as [EL|EL]; cbn [guard bind].
  2:{ split; [|auto]. intros [_ C]. exfalso. apply EL. apply lookup_key; auto. }
  apply lookup_key in EL; auto. split; [intros _|tauto].
  destruct (sideHe_ok nV nF m d a b (s_arr _ _ _ _ _ _ _ S) (s_he _ _ _ _ _ _ _ S) EL NE)
    as (m1 & h & -> & A1 & H1 & Hh & Va & Vb & Le & Ev & Ef & NI & OLD & TW & PAR). cbn [bind].
  destruct S as [S1 S2 S3 S4 S5 S6 S7 S8 S9].
  pose proof (ar_fa _ _ _ A1). pose proof (ar_le _ _ _ A1). pose proof (ar_vh _ _ _ A1). pose proof (ar_fh _ _ _ A1). pose proof (ar_n _ _ _ A1). pose proof (ar_fill _ _ _ A1).
  assert (0 <= iF) by (subst iF; apply zlen_nonneg).
  step. step.
  set (m2 := with_vhe (with_face m1 h iF) a h).
  (* the write of fHalfedge or next *)
  assert (X : exists m3, (if first =? INVALID then setFHe m2 iF h else setNext m2 prev h) = Ok m3 /\ Arr nV nF m3 /\ heFill m3 = heFill m1 /\
     (forall x, ve m3 x = ve m1 x) /\ (forall x, fa m3 x = if x =? h then iF else fa m1 x) /\
     (forall v, vh m3 v = if v =? a then h else vh m1 v) /\
     (forall x, nx m3 x = if negb (first =? INVALID) && (x =? prev) then h else nx m1 x) /\
     (forall f, fh m3 f = if (first =? INVALID) && (f =? iF) then h else fh m1 f) /\ (first <> -1 -> 0 <= prev < heFill m /\ In prev (hds cur))).
  { destruct (Z.eqb_spec first INVALID) as [E0|E0].
    - unfold m2. step. eexists. split; [reflexivity|]. split; [destruct A1; split; proj; rewrite ?zlen_updZ; auto|].
      split; [reflexivity|]. split; [intros; view; auto|]. split; [intros; view; auto|]. split; [intros; view; auto|]. split; [intros; view; auto|].
      split; [intros; view; auto|]. intros NZ. exfalso. apply NZ. exact E0.
    - assert (CN : cur <> []) by (intros C; subst cur; cbn in E1; apply E0; exact E1).
      assert (IP : In prev (hds cur)) by (rewrite EP; apply last_In; destruct cur; [congruence|discriminate]).
      assert (RP : 0 <= prev < heFill m).
      { apply in_map_iff in IP as ([[p q] g] & Eg & K). cbn in Eg. subst g. eapply (he_in _ _ _ _ S2 p q). rewrite S3. apply -> in_rev. apply in_or_app; auto. }
      unfold m2. step. eexists. split; [reflexivity|]. split; [destruct A1; split; proj; rewrite ?zlen_updZ; auto|].
      split; [reflexivity|]. split; [intros; view; auto|]. split; [intros; view; auto|]. split; [intros; view; auto|]. split; [intros; view; auto|].
      split; [intros; view; auto|]. auto. }
  destruct X as (m3 & -> & A3 & L3 & V3 & F3 & VH3 & N3 & FH3 & PR). cbn [bind].
  exists m3, (updZ used a 1), h. 
  assert (FE : (first =? INVALID) = match cur with [] => true | _ => false end).
  { rewrite E1. destruct cur as [|[[p q] g] t]; [reflexivity|]. cbn. apply Z.eqb_neq. apply (Hpos' p q). rewrite S3. apply -> in_rev. apply in_or_app. right. left; auto. }
  assert (INd : forall x, In x (map snd d) <-> In x (hds (concat FS)) \/ In x (hds cur)).
  { intros x. rewrite S3, map_rev, <- in_rev. fold (hds (concat FS ++ cur)). rewrite hds_app, in_app_iff. tauto. }
  assert (RG : forall x, In x (map snd d) -> 0 <= x < heFill m /\ x <> h).
  { intros x Hx. split; [|intros ->; auto]. apply in_map_iff in Hx as ([[p q] g] & Eg & K). cbn in Eg. subst g. apply (he_in _ _ _ _ S2 _ _ _ K). }
  split.
  { f_equal. f_equal; [|rewrite FE, E1; destruct cur; reflexivity]. f_equal. symmetry. apply hds_last. }
  split.
  - exact A3.
  - (* halfedges *) split.
    + intros p q g K. rewrite L3, !V3, F3. destruct K as [K|K].
      * injection K; intros; subst p q g. rewrite Z.eqb_refl. repeat split; auto; lia.
      * destruct (he_in _ _ _ _ H1 _ _ _ K) as (K1 & K2 & K3 & K4 & K5). destruct (Z.eqb_spec g h); repeat split; auto; lia.
    + intros g Hg Evn. rewrite L3 in Hg. rewrite !V3. right. destruct (he_even _ _ _ _ H1 g Hg Evn) as [->|K]; [left; congruence|right; auto].
    + intros g Hg NIg. rewrite L3 in Hg. cbn [map snd] in NIg. assert (g <> h) by (intros ->; apply NIg; left; auto).
      assert (NId : ~ In g (map snd d)) by (intros C; apply NIg; right; auto).
      rewrite N3, F3. destruct (Z.eqb_spec g h); [congruence|].
      destruct (negb (first =? INVALID) && (g =? prev)) eqn:Q; [|apply (he_out _ _ _ _ H1); auto].
      exfalso. apply andb_true_iff in Q as [Q1 Q2]. apply Z.eqb_eq in Q2. apply NId. apply INd. right. subst g. apply PR. unfold INVALID in Q1. lia.
    + intros p q g g' K K'. destruct K as [K|K], K' as [K'|K'].
      * congruence.
      * injection K; intros; subst p q g. apply TW; auto.
      * injection K'; intros; subst p q g'. symmetry. rewrite <- (tw_tw h). f_equal. apply TW. auto.
      * apply (he_tw _ _ _ _ H1 p q); auto.
    + cbn [map fst]. constructor; auto. apply (he_nd _ _ _ _ H1).
  - rewrite app_assoc, rev_app_distr. cbn [rev app]. congruence.
  - (* finished faces *) intros f l Hl. apply (FaceOk_ext m); [| |apply S4; auto].
    + intros x Hx. assert (Ix : In x (hds (concat FS))).
      { apply in_map_iff in Hx as (t & <- & Ht). apply in_map_iff. exists t. split; auto. eapply nth_error_concat; eauto. }
      assert (Id : In x (map snd d)) by (apply INd; auto). destruct (RG x Id) as [R1 R2]. destruct (OLD x R1) as (O1 & _ & O3).
      rewrite N3, F3. destruct (Z.eqb_spec x h); [congruence|]. split; [|auto].
      destruct (negb (first =? INVALID) && (x =? prev)) eqn:Q; [|auto]. exfalso. apply andb_true_iff in Q as [Q1 Q2]. apply Z.eqb_eq in Q2.
      assert (IP : In x (hds cur)) by (subst x; apply PR; unfold INVALID in Q1; lia).
      pose proof (NoDup_snd _ _ _ _ S2) as ND. rewrite S3, map_rev in ND. apply NoDup_rev in ND. rewrite rev_involutive in ND.
      fold (hds (concat FS ++ cur)) in ND. rewrite hds_app in ND. clear -ND IP Ix. induction (hds (concat FS)) as [|y t IH]; [destruct Ix|].
      cbn in ND. inversion ND as [|? ? N1 N2]; subst. destruct Ix as [->|Ix]; [apply N1; apply in_or_app; auto|auto].
    + rewrite FH3. assert (Z.of_nat f < iF).
      { rewrite EF. unfold zlen. rewrite map_length. assert (NN : nth_error FS f <> None) by congruence. apply nth_error_Some in NN. lia. }
      destruct (Z.eqb_spec (Z.of_nat f) iF); [lia|]. rewrite andb_false_r. unfold fh. congruence.
  - intros x Hx. rewrite hds_app, in_app_iff in Hx. rewrite F3, <- EF. destruct (Z.eqb_spec x h); [auto|].
    destruct Hx as [Hx|[Hx|[]]]; [|cbn in Hx; congruence]. assert (Id : In x (map snd d)) by (apply INd; auto). destruct (RG x Id) as [R1 R2].
    destruct (OLD x R1) as (_ & _ & O3). rewrite O3, S5; auto.
  - (* links *) destruct cur as [|c0 ct].
    + cbn. auto.
    + destruct (exists_last (l := c0 :: ct)) as (pre & z & EQ); [discriminate|]. rewrite EQ in *.
      rewrite !hds_app in *. assert (ND : NoDup (hds pre ++ hds [z])).
      { pose proof (NoDup_snd _ _ _ _ S2) as ND. rewrite S3, map_rev in ND. apply NoDup_rev in ND. rewrite rev_involutive in ND.
        fold (hds (concat FS ++ (pre ++ [z]))) in ND. rewrite !hds_app in ND. clear -ND. induction (hds (concat FS)); auto. inversion ND; auto. }
      assert (EPZ : prev = snd z). { rewrite EP. cbn [hds map]. apply last_last. }
      cbn [hds map] in *. apply linked_snoc.
      * apply (linked_ext_snoc (nx m)); auto. intros x Hx.
        assert (Id : In x (map snd d)) by (apply INd; right; apply in_or_app; auto). destruct (RG x Id) as [R1 R2]. destruct (OLD x R1) as (O1 & _ & _).
        rewrite N3. destruct (Z.eqb_spec x prev); [|rewrite andb_false_r; auto]. exfalso. subst x. rewrite EPZ in Hx. apply NoDup_remove_2 in ND. apply ND. rewrite app_nil_r. auto.
      * rewrite N3, FE, EPZ, Z.eqb_refl. destruct pre; reflexivity.
  - intros _. rewrite <- EF, FH3, FE. rewrite Z.eqb_refl. destruct cur as [|c0 ct]; cbn [andb]; [reflexivity|]. rewrite hds_app, hd_app by discriminate.
    rewrite <- S7 by discriminate. rewrite <- EF. unfold fh. congruence.
  - rewrite zlen_updZ. auto.
  - intros v Hv. rewrite getZ_updZ by (rewrite S8; auto). rewrite VH3. destruct (Z.eqb_spec v a) as [->|Nv].
    + right. split; auto. exists b. left; auto.
    + destruct (S9 v Hv) as [(U1 & U2 & U3)|(U1 & b' & U2)]; [left|right].
      * split; auto. split; [unfold vh in *; congruence|]. intros b' h' [C|C]; [congruence|]. eapply U3; eauto.
      * split; auto. exists b'. right. replace (vh m1 v) with (vh m v) by (unfold vh; congruence). auto.
Qed.

(** no self-edge, and no directed edge twice or among those already there *)
Fixpoint fresh (D ks : list (Z * Z)) : Prop :=
  match ks with
  | [] => True
  | k :: t => (fst k <> snd k /\ ~ In k D) /\ fresh (k :: D) t
  end.
Definition key_dec (x y : Z * Z) : {x = y} + {x <> y}.
Proof. decide equality; apply Z.eq_dec. Defined.
Lemma fresh_head_dec D (k : Z * Z) : (fst k <> snd k /\ ~ In k D) \/ ~ (fst k <> snd k /\ ~ In k D).
Proof. destruct (Z.eq_dec (fst k) (snd k)), (in_dec key_dec k D); tauto. Qed.
Lemma fresh_dec D ks : fresh D ks \/ ~ fresh D ks.
Proof.
  revert D; induction ks as [|k t IH]; intros D; cbn [fresh]; [auto|].
  destruct (fresh_head_dec D k), (IH (k :: D)); tauto.
Qed.
Lemma fresh_app D k1 k2 : fresh D (k1 ++ k2) <-> fresh D k1 /\ fresh (rev k1 ++ D) k2.
Proof.
  revert D; induction k1 as [|k t IH]; intros D; cbn [app fresh rev]; [tauto|].
  rewrite IH. rewrite <- app_assoc. cbn [app]. tauto.
Qed.
Lemma fresh_iff D ks : fresh D ks <-> Forall (fun k => fst k <> snd k) ks /\ NoDup ks /\ (forall k, In k ks -> ~ In k D).
Proof.
  revert D; induction ks as [|k t IH]; intros D; cbn [fresh].
  - split; auto. intros _. split; [constructor|split; [constructor|intros k []]].
  - rewrite IH. split.
    + intros ((H1 & H2) & H3 & H4 & H5). split; [constructor; auto|]. split.
      * constructor; auto. intros C. apply (H5 k C). left; auto.
      * intros x [<-|Hx] C; [auto|]. apply (H5 x Hx). right; auto.
    + intros (H1 & H2 & H3). inversion H1; inversion H2; subst. split; [split; auto; apply H3; left; auto|]. split; auto. split; auto.
      intros x Hx [<-|C]; [auto|]. apply (H3 x); [right; auto|auto].
Qed.

Lemma addSides_ok nV nF FS iF : iF = zlen (map (fun _ => 0) FS) -> iF < nF ->
  forall ks m d used cur, St nV nF m d used FS cur ->
  Forall (fun k : Z * Z => 0 <= fst k < nV /\ 0 <= snd k < nV) ks ->
  (fresh (map fst d) ks -> exists m' d' used' new,
     foldM (addSide iF) ks (m, d, used, last (hds cur) (-1), hd (-1) (hds cur)) = Ok (m', d', used', last (hds (cur ++ new)) (-1), hd (-1) (hds (cur ++ new))) /\
     St nV nF m' d' used' FS (cur ++ new) /\ map fst new = ks) /\
  (~ fresh (map fst d) ks -> foldM (addSide iF) ks (m, d, used, last (hds cur) (-1), hd (-1) (hds cur)) = Throw).
Proof.
  intros EF HF. induction ks as [|[a b] t IH]; intros m d used cur S R.
  - cbn [fresh foldM]. split; [|tauto]. intros _. exists m, d, used, []. rewrite app_nil_r. auto.
  - inversion R as [|? ? R1 R2]; subst x l. cbn in R1.
    destruct (addSide_ok nV nF m d used FS cur a b iF _ _ S (proj1 R1) (proj2 R1) EF HF eq_refl eq_refl) as [OKs TH].
    cbn [fresh foldM fst snd]. destruct (fresh_head_dec (map fst d) (a, b)) as [Y|N]; cbn [fst snd] in *.
    + destruct (OKs Y) as (m1 & u1 & h & -> & S1). cbn [bind]. destruct (IH _ _ _ _ S1 R2) as [I1 I2]. cbn [map fst] in *. split.
      * intros [_ Fr]. destruct (I1 Fr) as (m' & d' & u' & new & E & S' & K). exists m', d', u', ((a, b, h) :: new).
        rewrite <- app_assoc in E, S'. cbn [app] in E, S'. split; [exact E|]. split; [exact S'|]. cbn. congruence.
      * intros NF. apply I2. tauto.
    + rewrite (TH N). cbn [bind]. split; tauto.
Qed.

Lemma zlen_const {A} (l : list A) : zlen (map (fun _ => 0) l) = Z.of_nat (length l).
Proof. unfold zlen. rewrite map_length. reflexivity. Qed.

Lemma addFace_ok nV nF FS p m d used : zlen (map (fun _ => 0) FS) < nF -> p <> [] ->
  St nV nF m d used FS [] -> Forall (fun k : Z * Z => 0 <= fst k < nV /\ 0 <= snd k < nV) (sides p) ->
  (fresh (map fst d) (sides p) -> exists m' d' used' l,
     addFace (m, d, used, zlen (map (fun _ => 0) FS)) p = Ok (m', d', used', zlen (map (fun _ => 0) (FS ++ [l]))) /\
     St nV nF m' d' used' (FS ++ [l]) [] /\ map fst l = sides p) /\
  (~ fresh (map fst d) (sides p) -> addFace (m, d, used, zlen (map (fun _ => 0) FS)) p = Throw).
Proof.
  intros HF NP S R. destruct (addSides_ok nV nF FS _ eq_refl HF (sides p) m d used [] S R) as [H1 H2].
  unfold addFace. cbn [hds map last hd] in H1, H2. change (-1) with INVALID in H1 at 1 2. change (-1) with INVALID in H2 at 1 2.
  split; [|intros N; rewrite (H2 N); reflexivity].
  intros Fr. destruct (H1 Fr) as (m' & d' & u' & l & E & S' & K). rewrite E. cbn [bind app] in *. clear H1 H2 E S.
  assert (NL : l <> []) by (intros ->; destruct p as [|x [|y t]]; [congruence|discriminate K|discriminate K]).
  destruct S' as [S1 S2 S3 S4 S5 S6 S7 S8 S9].
  assert (IL : In (last (hds l) (-1)) (hds l)) by (apply last_In; destruct l; [congruence|discriminate]).
  assert (RL : 0 <= last (hds l) (-1) < heFill m').
  { apply in_map_iff in IL as ([[x y] g] & Eg & Kg). rewrite <- Eg. eapply (he_in _ _ _ _ S2 x y). rewrite S3. apply -> in_rev. apply in_or_app; auto. }
  set (z := last (hds l) (-1)) in *. set (q := hd (-1) (hds l)) in *.
  pose proof (ar_n _ _ _ S1). pose proof (ar_le _ _ _ S1).
  step. exists (with_next m' z q), d', u', l. split; [rewrite !zlen_const, app_length; cbn [length]; do 2 f_equal; lia|]. split; [|auto].
  set (m3 := with_next m' z q).
  assert (N3 : forall x, nx m3 x = if x =? z then q else nx m' x) by (intros; unfold m3; view; auto).
  assert (INd : forall x, In x (map snd d') <-> In x (hds (concat FS)) \/ In x (hds l)).
  { intros x. rewrite S3, map_rev, <- in_rev. fold (hds (concat FS ++ l)). rewrite hds_app, in_app_iff. tauto. }
  pose proof (NoDup_snd _ _ _ _ S2) as ND. rewrite S3, map_rev in ND. apply NoDup_rev in ND. rewrite rev_involutive in ND.
  fold (hds (concat FS ++ l)) in ND. rewrite hds_app in ND.
  split.
  - destruct S1; split; unfold m3; proj; rewrite ?zlen_updZ; auto.
  - destruct S2 as [T1 T2 T3 T4 T5]. split; auto. intros h Hh NI. rewrite N3. destruct (Z.eqb_spec h z); [|apply T3; auto].
    exfalso. apply NI. apply INd. subst h; auto.
  - rewrite concat_app. cbn [concat]. rewrite !app_nil_r. auto.
  - intros f l' Hl. destruct (Nat.eq_dec f (length FS)) as [->|NE].
    + rewrite nth_error_app2 in Hl by lia. rewrite Nat.sub_diag in Hl. cbn in Hl. injection Hl as <-. rewrite zlen_const in S5, S7. split; auto.
      * destruct (exists_last NL) as (pre & y & EQ). subst l. rewrite hds_app in *. cbn [hds map] in *.
        assert (EZ : z = snd y) by apply hds_last.
        apply (linked_ext_snoc (nx m')); auto.
        { clear -ND. induction (hds (concat FS)); auto. inversion ND; auto. }
        intros x Hx. rewrite N3. destruct (Z.eqb_spec x z); auto. exfalso. subst x. rewrite EZ in Hx.
        assert (ND2 : NoDup (hds pre ++ [snd y])) by (clear -ND; induction (hds (concat FS)); auto; inversion ND; auto).
        apply NoDup_remove_2 in ND2. apply ND2. rewrite app_nil_r. auto.
      * rewrite N3. fold z q. rewrite Z.eqb_refl. auto.
    + assert (f < length FS)%nat by (assert (NN : nth_error (FS ++ [l]) f <> None) by congruence; apply nth_error_Some in NN; rewrite app_length in NN; cbn in NN; lia).
      rewrite nth_error_app1 in Hl by auto. apply (FaceOk_ext m'); [| reflexivity|apply S4; auto].
      intros x Hx. split; [|reflexivity]. rewrite N3. destruct (Z.eqb_spec x z); auto. exfalso. subst x.
      assert (Ix : In z (hds (concat FS))).
      { apply in_map_iff in Hx as (t & <- & Ht). apply in_map_iff. exists t. split; auto. eapply nth_error_concat; eauto. }
      clear -ND IL Ix. induction (hds (concat FS)) as [|y t IH]; [destruct Ix|].
      cbn in ND. inversion ND as [|? ? N1 N2]; subst. destruct Ix as [->|Ix]; [apply N1; apply in_or_app; auto|auto].
  - intros h [].
  - exact I.
  - congruence.
  - auto.
  - exact S9.
Qed.

Lemma addFaces_ok nV nF : forall ps FS m d used, zlen (map (fun _ => 0) FS) + zlen (map (fun _ => 0) ps) = nF ->
  Forall (fun p => p <> []) ps -> St nV nF m d used FS [] ->
  Forall (fun k : Z * Z => 0 <= fst k < nV /\ 0 <= snd k < nV) (concat (map sides ps)) ->
  (fresh (map fst d) (concat (map sides ps)) -> exists m' d' used' GS,
     foldM addFace ps (m, d, used, zlen (map (fun _ => 0) FS)) = Ok (m', d', used', nF) /\
     St nV nF m' d' used' (FS ++ GS) [] /\ map (map fst) GS = map sides ps) /\
  (~ fresh (map fst d) (concat (map sides ps)) -> foldM addFace ps (m, d, used, zlen (map (fun _ => 0) FS)) = Throw).
Proof.
  induction ps as [|p t IH]; intros FS m d used EN NP S R.
  - cbn [foldM map concat fresh]. split; [intros _|tauto]. exists m, d, used, []. rewrite app_nil_r. cbn in EN. split; [do 3 f_equal; lia|]. auto.
  - inversion NP as [|? ? P1 P2]; subst x l. cbn [map concat] in *. apply Forall_app in R as [R1 R2].
    assert (EN2 : zlen (map (fun _ => 0) FS) + 1 + zlen (map (fun _ => 0) t) = nF) by (rewrite !zlen_const in *; unfold zlen in *; cbn [length] in *; rewrite map_length in *; lia).
    destruct (addFace_ok nV nF FS p m d used) as [H1 H2]; auto. { pose proof (zlen_nonneg (map (fun _ => 0) t)). lia. }
    cbn [foldM]. rewrite fresh_app. destruct (fresh_dec (map fst d) (sides p)) as [Y|N].
    + destruct (H1 Y) as (m1 & d1 & u1 & l & -> & S1 & K1). cbn [bind].
      assert (ED : map fst d1 = rev (sides p) ++ map fst d).
      { rewrite (s_d _ _ _ _ _ _ _ S1), (s_d _ _ _ _ _ _ _ S). rewrite concat_app. cbn [concat]. rewrite !app_nil_r, rev_app_distr, map_app, map_rev, K1. reflexivity. }
      destruct (IH (FS ++ [l]) m1 d1 u1) as [I1 I2]; auto. { rewrite !zlen_const in *. rewrite app_length. cbn [length]. lia. }
      rewrite ED in I1, I2. split.
      * intros [_ Fr]. destruct (I1 Fr) as (m' & d' & u' & GS & E & S' & K). exists m', d', u', (l :: GS). rewrite <- app_assoc in S'. cbn [app] in S'.
        split; auto. split; auto. cbn. congruence.
      * intros NF. apply I2. tauto.
    + rewrite (H2 N). cbn [bind]. split; tauto.
Qed.
