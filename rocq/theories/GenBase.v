(** Reading, writing and growing the arrays of a general mesh *)
From Verif Require Import Base MeshModel MeshSpec MeshBase GenModel GenSpec.
Open Scope Z_scope.

Lemma arr_eqb_refl a : arr_eqb a a = true. Proof. destruct a; reflexivity. Qed.
Lemma arr_eqb_eq a b : arr_eqb a b = true <-> a = b. Proof. split; [destruct a, b; simpl; congruence|intros <-; apply arr_eqb_refl]. Qed.
Lemma arr_eqb_neq a b : a <> b -> arr_eqb a b = false.
Proof. intros H. destruct (arr_eqb a b) eqn:E; auto. apply arr_eqb_eq in E. contradiction. Qed.
Lemma eltype_eqb_eq a b : eltype_eqb a b = true <-> a = b. Proof. split; [destruct a, b; simpl; congruence|intros <-; destruct a; reflexivity]. Qed.

(** a write that stays in bounds *)
Definition wA (m : gmesh) (a : arr) (i x : Z) : gmesh := setA m (put (ga m) a (updZ (ga m a) i x)).
Lemma wrA_ok m a i x : 0 <= i < zlen (ga m a) -> wrA m a i x = Ok (wA m a i x).
Proof. intros H. unfold wrA. rewrite wrZ_ok by auto. reflexivity. Qed.
Lemma rdA_ok m a i : 0 <= i < zlen (ga m a) -> rdA m a i = Ok (ev m a i).
Proof. intros H. unfold rdA. rewrite rdZ_ok by auto. reflexivity. Qed.
Lemma len_wA m a i x b : zlen (ga (wA m a i x) b) = zlen (ga m b).
Proof. unfold wA, setA, put. cbn [ga]. destruct (arr_eqb a b) eqn:E; auto. apply arr_eqb_eq in E as <-. apply zlen_updZ. Qed.
Lemma ev_wA m a i x b j : 0 <= i < zlen (ga m a) -> ev (wA m a i x) b j = if arr_eqb a b && (j =? i) then x else ev m b j.
Proof.
  intros H. unfold ev, wA, setA, put. cbn [ga]. destruct (arr_eqb a b) eqn:E; cbn [andb]; auto. apply arr_eqb_eq in E as <-.
  apply getZ_updZ; auto.
Qed.
Lemma ev_other m a i x b j : a <> b -> ev (wA m a i x) b j = ev m b j.
Proof. intros H. unfold ev, wA, setA, put. cbn [ga]. rewrite arr_eqb_neq by auto. reflexivity. Qed.
Lemma ev_same m a i x j : 0 <= i < zlen (ga m a) -> ev (wA m a i x) a j = if j =? i then x else ev m a j.
Proof. intros H. rewrite ev_wA by auto. rewrite arr_eqb_refl. reflexivity. Qed.
(** everything but the arrays *)
Definition frame (m : gmesh) : Z * Z * Z * Z * Z * (Z * Z * Z * Z) * (Z * Z * Z * Z) :=
  (gHe m, gInt m, gEd m, gVe m, gFc m, (gHeFill m, gEFill m, gVFill m, gFFill m), (gHeCap m, gECap m, gVCap m, gFCap m)).
Lemma frame_wA m a i x : frame (wA m a i x) = frame m. Proof. reflexivity. Qed.
Lemma fill_wA m a i x t : gFill (wA m a i x) t = gFill m t. Proof. destruct t; reflexivity. Qed.
Lemma cap_wA m a i x t : gCap (wA m a i x) t = gCap m t. Proof. destruct t; reflexivity. Qed.
Lemma ev_oob m a i : i < 0 \/ zlen (ga m a) <= i -> ev m a i = -1. Proof. apply getZ_oob. Qed.

(** ** growth: old entries are kept *)
Definition Sized (m : gmesh) (t : eltype) : Prop := (forall a, typeOf a = t -> zlen (ga m a) = gCap m t) /\ 0 <= gFill m t <= gCap m t.
Lemma len_resizeA m t n a : 0 <= n -> zlen (ga (resizeA m t n) a) = if eltype_eqb (typeOf a) t then n else zlen (ga m a).
Proof. intros H. unfold resizeA, setA. cbn [ga]. destruct (eltype_eqb (typeOf a) t); auto. apply zlen_resizeZ; auto. Qed.
Lemma ev_resizeA m t n a i : (typeOf a = t -> 0 <= i < zlen (ga m a) /\ i < n) -> ev (resizeA m t n) a i = ev m a i.
Proof.
  intros H. unfold ev, resizeA, setA. cbn [ga]. destruct (eltype_eqb (typeOf a) t) eqn:E; auto. apply eltype_eqb_eq in E.
  apply getZ_resizeZ; apply H; auto.
Qed.
Definition grown (m m' : gmesh) (t : eltype) : Prop :=
  gFill m' t = gFill m t + 1 /\ (forall a, typeOf a = t -> zlen (ga m' a) = gCap m' t) /\ gFill m' t <= gCap m' t /\ gCap m t <= gCap m' t /\
  (forall a i, 0 <= i < gFill m (typeOf a) -> ev m' a i = ev m a i) /\
  (forall a, typeOf a <> t -> ga m' a = ga m a) /\ (forall u, u <> t -> gFill m' u = gFill m u /\ gCap m' u = gCap m u).
Lemma newHalfedge_ok m b : Sized m THe -> exists m', gNewHalfedge m b = (m', gHeFill m) /\ grown m m' THe /\
  gHe m' = gHe m + 1 /\ gInt m' = (if b then gInt m + 1 else gInt m) /\ gEd m' = gEd m /\ gVe m' = gVe m /\ gFc m' = gFc m.
Proof.
  intros [SL SF]. unfold gNewHalfedge. cbn [gFill gCap] in SF, SL. destruct (gHeFill m <? gHeCap m) eqn:E.
  - eexists. split; [reflexivity|]. split; [|repeat split; reflexivity]. unfold grown. cbn [gFill gCap ga gHeFill gHeCap].
    split; [reflexivity|]. split; [exact SL|]. split; [lia|]. split; [lia|]. split; [reflexivity|]. split; [reflexivity|].
    intros [] N; [congruence| | |]; split; reflexivity.
  - eexists. split; [reflexivity|]. split; [|repeat split; reflexivity]. unfold grown. cbn [gFill gCap gHeFill gHeCap resizeA setA].
    split; [reflexivity|]. split; [intros a T; pose proof (len_resizeA m THe (Z.max (gHeCap m * 2) 1) a ltac:(lia)) as L; rewrite T in L; exact L|].
    split; [lia|]. split; [lia|]. split; [intros a i Hi; apply (ev_resizeA m THe _ a i); intros T; rewrite T in Hi; rewrite SL by auto; cbn [gFill] in Hi; lia|].
    split; [intros a T; unfold resizeA, setA; cbn [ga]; destruct (eltype_eqb (typeOf a) THe) eqn:T'; auto; apply eltype_eqb_eq in T'; contradiction|].
    intros [] N; [congruence| | |]; split; reflexivity.
Qed.
Lemma newEdge_ok m : Sized m TEd -> exists m', gNewEdge m = (m', gEFill m) /\ grown m m' TEd /\
  gHe m' = gHe m /\ gInt m' = gInt m /\ gEd m' = gEd m + 1 /\ gVe m' = gVe m /\ gFc m' = gFc m.
Proof.
  intros [SL SF]. unfold gNewEdge. cbn [gFill gCap] in SF, SL. destruct (gEFill m <? gECap m) eqn:E.
  - eexists. split; [reflexivity|]. split; [|repeat split; reflexivity]. unfold grown. cbn [gFill gCap ga gEFill gECap].
    split; [reflexivity|]. split; [exact SL|]. split; [lia|]. split; [lia|]. split; [reflexivity|]. split; [reflexivity|].
    intros [] N; [| | |congruence]; split; reflexivity.
  - eexists. split; [reflexivity|]. split; [|repeat split; reflexivity]. unfold grown. cbn [gFill gCap gEFill gECap resizeA setA].
    split; [reflexivity|]. split; [intros a T; pose proof (len_resizeA m TEd (Z.max (gECap m * 2) 1) a ltac:(lia)) as L; rewrite T in L; exact L|].
    split; [lia|]. split; [lia|]. split; [intros a i Hi; apply (ev_resizeA m TEd _ a i); intros T; rewrite T in Hi; rewrite SL by auto; cbn [gFill] in Hi; lia|].
    split; [intros a T; unfold resizeA, setA; cbn [ga]; destruct (eltype_eqb (typeOf a) TEd) eqn:T'; auto; apply eltype_eqb_eq in T'; contradiction|].
    intros [] N; [| | |congruence]; split; reflexivity.
Qed.
(** doubling a capacity of 0 does nothing *)
Lemma newVertex_ok m : Sized m TVe -> 0 < gVCap m -> exists m', gNewVertex m = (m', gVFill m) /\ grown m m' TVe /\
  gHe m' = gHe m /\ gInt m' = gInt m /\ gEd m' = gEd m /\ gVe m' = gVe m + 1 /\ gFc m' = gFc m.
Proof.
  intros [SL SF] P. unfold gNewVertex. cbn [gFill gCap] in SF, SL. destruct (gVFill m <? gVCap m) eqn:E.
  - eexists. split; [reflexivity|]. split; [|repeat split; reflexivity]. unfold grown. cbn [gFill gCap ga gVFill gVCap].
    split; [reflexivity|]. split; [exact SL|]. split; [lia|]. split; [lia|]. split; [reflexivity|]. split; [reflexivity|].
    intros [] N; [|congruence| |]; split; reflexivity.
  - eexists. split; [reflexivity|]. split; [|repeat split; reflexivity]. unfold grown. cbn [gFill gCap gVFill gVCap resizeA setA].
    split; [reflexivity|]. split; [intros a T; pose proof (len_resizeA m TVe (gVCap m * 2) a ltac:(lia)) as L; rewrite T in L; exact L|].
    split; [lia|]. split; [lia|]. split; [intros a i Hi; apply (ev_resizeA m TVe _ a i); intros T; rewrite T in Hi; rewrite SL by auto; cbn [gFill] in Hi; lia|].
    split; [intros a T; unfold resizeA, setA; cbn [ga]; destruct (eltype_eqb (typeOf a) TVe) eqn:T'; auto; apply eltype_eqb_eq in T'; contradiction|].
    intros [] N; [|congruence| |]; split; reflexivity.
Qed.
Lemma newFace_ok m : Sized m TFc -> 0 < gFCap m -> exists m', gNewFace m = (m', gFFill m) /\ grown m m' TFc /\
  gHe m' = gHe m /\ gInt m' = gInt m /\ gEd m' = gEd m /\ gVe m' = gVe m /\ gFc m' = gFc m + 1.
Proof.
  intros [SL SF] P. unfold gNewFace. cbn [gFill gCap] in SF, SL. destruct (gFFill m <? gFCap m) eqn:E.
  - eexists. split; [reflexivity|]. split; [|repeat split; reflexivity]. unfold grown. cbn [gFill gCap ga gFFill gFCap].
    split; [reflexivity|]. split; [exact SL|]. split; [lia|]. split; [lia|]. split; [reflexivity|]. split; [reflexivity|].
    intros [] N; [| |congruence|]; split; reflexivity.
  - eexists. split; [reflexivity|]. split; [|repeat split; reflexivity]. unfold grown. cbn [gFill gCap gFFill gFCap resizeA setA].
    split; [reflexivity|]. split; [intros a T; pose proof (len_resizeA m TFc (gFCap m * 2) a ltac:(lia)) as L; rewrite T in L; exact L|].
    split; [lia|]. split; [lia|]. split; [intros a i Hi; apply (ev_resizeA m TFc _ a i); intros T; rewrite T in Hi; rewrite SL by auto; cbn [gFill] in Hi; lia|].
    split; [intros a T; unfold resizeA, setA; cbn [ga]; destruct (eltype_eqb (typeOf a) TFc) eqn:T'; auto; apply eltype_eqb_eq in T'; contradiction|].
    intros [] N; [| |congruence|]; split; reflexivity.
Qed.

(** ** rings *)
Lemma NoDup_map_inj {A B} (f : A -> B) l a b : NoDup (map f l) -> In a l -> In b l -> f a = f b -> a = b.
Proof.
  induction l as [|x l IH]; simpl; intros ND Ia Ib E; [contradiction|]. apply NoDup_cons_iff in ND as [N1 N2].
  destruct Ia as [->|Ia], Ib as [->|Ib]; auto; exfalso; apply N1; [rewrite E|rewrite <- E]; apply in_map; auto.
Qed.
Section Rings.
Context (n : Z) (f key : Z -> Z) (R : Ring n f key).
Lemma ring_in h : 0 <= h < n -> 0 <= f h < n. Proof. intros H. apply (proj1 R); auto. Qed.
Lemma ring_key h : 0 <= h < n -> key (f h) = key h. Proof. intros H. apply (proj1 R); auto. Qed.
Lemma ring_iter k h : 0 <= h < n -> 0 <= Nat.iter k f h < n /\ key (Nat.iter k f h) = key h.
Proof. intros H. induction k as [|k [I1 I2]]; simpl; auto. split; [apply ring_in; auto|]. rewrite ring_key by auto. auto. Qed.
Lemma ring_back h : 0 <= h < n -> exists p, 0 <= p < n /\ f p = h /\ key p = key h.
Proof.
  intros H. destruct (proj2 R (f h) h (ring_in h H) H (ring_key h H)) as (k & E).
  destruct k as [|k]; [exists h; auto|]. simpl in E. exists (Nat.iter k f (f h)).
  destruct (ring_iter k (f h) (ring_in h H)) as [I1 I2]. split; auto. split; auto. rewrite I2. apply ring_key; auto.
Qed.
Lemma ring_inj a b : 0 <= a < n -> 0 <= b < n -> f a = f b -> a = b.
Proof.
  intros Ha Hb E.
  assert (S : incl (zseq n) (map f (zseq n))).
  { intros x Hx. apply zseq_In in Hx. destruct (ring_back x Hx) as (p & Hp & Ep & _). apply in_map_iff. exists p. split; auto. apply zseq_In; auto. }
  assert (ND : NoDup (map f (zseq n))).
  { apply NoDup_incl_NoDup with (zseq n); auto; [apply zseq_NoDup|rewrite map_length; auto]. }
  apply (NoDup_map_inj f (zseq n)); auto; apply zseq_In; auto.
Qed.
End Rings.
