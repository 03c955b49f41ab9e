(** The constructor of the general mesh *)
From Verif Require Import Base MeshModel MeshSpec MeshBase MeshOrbit BuildList GenModel GenSpec GenBase GenBuild1 GenBuild2 GenBuild3.
From Coq Require Import Permutation.
Open Scope Z_scope.

Lemma live_all m a n : (forall i, 0 <= i < n -> 0 <= ev m a i) -> gLive m a n = zseq n.
Proof. intros H. apply filter_all. intros x Hx. apply zseq_In in Hx. specialize (H x Hx). unfold ev in H. unfold INVALID. lia. Qed.
Lemma ring_ext n f g key key' : (forall h, 0 <= h < n -> f h = g h) -> (forall h, 0 <= h < n -> key h = key' h) -> Ring n f key -> Ring n g key'.
Proof.
  intros E K [R1 R2].
  assert (IT : forall k a, 0 <= a < n -> 0 <= Nat.iter k f a < n /\ Nat.iter k f a = Nat.iter k g a).
  { intros k a Ha. induction k as [|k [I1 I2]]; [auto|]. simpl. rewrite <- I2. split; [apply R1; auto|apply E; auto]. }
  split.
  - intros h Hh. rewrite <- E by auto. destruct (R1 h Hh) as [A B]. split; auto. rewrite <- !K; auto.
  - intros a b Ha Hb Kab. rewrite <- !K in Kab by auto. destruct (R2 a b Ha Hb Kab) as (k & Ek). exists k. rewrite <- (proj2 (IT k a Ha)). exact Ek.
Qed.

(** what the neighbour arrays are afterwards *)
Record Nbr (m0 m : gmesh) (N nV : Z) (S Nx Pv : arr) (ka : Z -> Z) : Prop := {
  b_ring : Ring N (ev m Nx) ka;
  b_prev : forall h, 0 <= h < N -> ev m Pv (ev m Nx h) = h;
  b_start : forall v, 0 <= v < nV -> 0 <= ev m S v < N /\ ka (ev m S v) = v }.

Lemma initNeighbors_ok m N nV : gHeFill m = N -> gVFill m = nV -> 0 <= N <= gHeCap m -> 0 <= nV <= gVCap m ->
  (forall h, 0 <= h < N -> 0 <= ev m ANext h < N /\ 0 <= ev m AVert h < nV) -> N <= zlen (ga m ANext) -> N <= zlen (ga m AVert) ->
  (forall v, 0 <= v < nV -> 0 <= ev m AVHe v) ->
  (forall v, 0 <= v < nV -> exists h, 0 <= h < N /\ ev m AVert h = v) -> (forall v, 0 <= v < nV -> exists h, 0 <= h < N /\ gTipOf m h = v) ->
  exists m', gInitNeighbors m = Ok m' /\ frame m' = frame m /\
    (forall a, zlen (ga m' a) = match a with AInN | AInP | AOutN | AOutP => gHeCap m | AInS | AOutS => gVCap m | _ => zlen (ga m a) end) /\
    (forall a, match a with AInN | AInP | AOutN | AOutP | AInS | AOutS => False | _ => True end -> ga m' a = ga m a) /\
    Nbr m m' N nV AOutS AOutN AOutP (gTailOf m) /\ Nbr m m' N nV AInS AInN AInP (gTipOf m).
Proof.
  intros EN EV CN CV IN LN LV VH OUT INC.
  assert (LH : gLiveHes m = zseq N) by (unfold gLiveHes; rewrite EN; apply live_all; intros i Hi; apply IN; auto).
  assert (TIP : forall h, 0 <= h < N -> 0 <= gTipOf m h < nV) by (intros h Hh; apply IN, IN; auto).
  assert (TAIL : forall h, 0 <= h < N -> 0 <= gTailOf m h < nV) by (intros h Hh; apply IN; auto).
  unfold gInitNeighbors.
  destruct (cache_ok N nV (proj1 CN) (proj1 CV) (gTipOf m) TIP m true EV EN LH) as (iI & sI & -> & I1 & I2 & I3 & I4).
  { intros h Hh. cbn [gKey]. unfold gTip. destruct (IN h Hh) as [A B]. rewrite rdA_ok by lia. cbn [bind]. rewrite rdA_ok by lia. reflexivity. }
  cbn [bind].
  destruct (cache_ok N nV (proj1 CN) (proj1 CV) (gTailOf m) TAIL m false EV EN LH) as (iO & sO & -> & O1 & O2 & O3 & O4).
  { intros h Hh. cbn [gKey]. unfold gTail. rewrite rdA_ok by lia. reflexivity. }
  cbn [bind]. cbn zeta.
  match goal with |- context [gVertices ?x] => set (m1 := x) end.
  assert (LM : forall a, zlen (ga m1 a) = match a with AInN | AInP | AOutN | AOutP => gHeCap m | AInS | AOutS => gVCap m | _ => zlen (ga m a) end).
  { intros a. destruct a; cbn; try reflexivity; apply zlen_resizeZ; lia. }
  assert (GV : gVertices m1 = zseq nV) by (unfold gVertices; change (gVFill m1) with (gVFill m); rewrite EV; apply (live_all m AVHe nV); auto).
  rewrite GV.
  assert (CI : forall v, 0 <= v < nV -> 0 < cnt (gTipOf m) N v).
  { intros v Hv. destruct (INC v Hv) as (h & H1 & H2). apply countb_pos with h; auto. lia. }
  assert (CO : forall v, 0 <= v < nV -> 0 < cnt (gTailOf m) N v).
  { intros v Hv. destruct (OUT v Hv) as (h & H1 & H2). apply countb_pos with h; auto. unfold gTailOf. lia. }
  set (hI := hAt N (gTipOf m) iI). set (hO := hAt N (gTailOf m) iO).
  set (nI := nxt N (gTipOf m) iI). set (nO := nxt N (gTailOf m) iO). set (pI := prv N (gTipOf m) iI). set (pO := prv N (gTailOf m) iO).
  assert (G : forall n, 0 <= n -> n <= nV -> exists m', foldM (fun m v => let* m := gLinkVertex iI sI AInS AInN AInP false m v in
                    gLinkVertex iO sO AOutS AOutN AOutP true m v) (zseq n) m1 = Ok m' /\
     (forall a, zlen (ga m' a) = zlen (ga m1 a)) /\ frame m' = frame m /\
     (forall a, match a with AInN | AInP | AOutN | AOutP | AInS | AOutS => False | _ => True end -> ga m' a = ga m a) /\
     (forall h, 0 <= h < N -> gTipOf m h < n -> ev m' AInN h = nI h /\ ev m' AInP h = pI h) /\
     (forall h, 0 <= h < N -> gTailOf m h < n -> ev m' AOutN h = nO h /\ ev m' AOutP h = pO h) /\
     (forall v, 0 <= v < n -> ev m' AInS v = hI v 0 /\ ev m' AOutS v = hO v 0)).
  { apply (Z_ind_nonneg (fun n => n <= nV -> exists m', foldM (fun m v => let* m := gLinkVertex iI sI AInS AInN AInP false m v in
                    gLinkVertex iO sO AOutS AOutN AOutP true m v) (zseq n) m1 = Ok m' /\
     (forall a, zlen (ga m' a) = zlen (ga m1 a)) /\ frame m' = frame m /\
     (forall a, match a with AInN | AInP | AOutN | AOutP | AInS | AOutS => False | _ => True end -> ga m' a = ga m a) /\
     (forall h, 0 <= h < N -> gTipOf m h < n -> ev m' AInN h = nI h /\ ev m' AInP h = pI h) /\
     (forall h, 0 <= h < N -> gTailOf m h < n -> ev m' AOutN h = nO h /\ ev m' AOutP h = pO h) /\
     (forall v, 0 <= v < n -> ev m' AInS v = hI v 0 /\ ev m' AOutS v = hO v 0))).
    - intros _. exists m1. split; [reflexivity|]. split; [auto|]. split; [reflexivity|].
      split; [intros a Ha; destruct a; try contradiction; reflexivity|].
      split; [intros h Hh L; specialize (TIP h Hh); lia|]. split; [intros h Hh L; specialize (TAIL h Hh); lia|]. intros; lia.
    - intros n Hn IH L. destruct (IH ltac:(lia)) as (m2 & F & B1 & B2 & B3 & B4 & B5 & B6). rewrite zseq_S by auto. rewrite foldM_app, F. cbn [bind foldM].
      destruct (link_ok N nV (proj1 CN) (gTipOf m) TIP iI sI I1 I2 I3 I4 AInS AInN AInP ltac:(discriminate) ltac:(discriminate) ltac:(discriminate) ltac:(discriminate) ltac:(discriminate) ltac:(discriminate)
        false m2 n ltac:(lia) (CI n ltac:(lia))) as (m3 & -> & K1 & K2 & K3 & K4 & K5 & K6); try (rewrite B1, LM; lia); try discriminate.
      cbn [bind].
      assert (VT : forall h, 0 <= h < N -> ev m3 AVert h = gTailOf m h) by (intros h Hh; unfold ev, gTailOf; rewrite K3 by discriminate; rewrite B3 by exact I; reflexivity).
      destruct (link_ok N nV (proj1 CN) (gTailOf m) TAIL iO sO O1 O2 O3 O4 AOutS AOutN AOutP ltac:(discriminate) ltac:(discriminate) ltac:(discriminate) ltac:(discriminate) ltac:(discriminate) ltac:(discriminate)
        true m3 n ltac:(lia) (CO n ltac:(lia))) as (m4 & -> & J1 & J2 & J3 & J4 & J5 & J6); try (rewrite K1, B1, LM; lia).
      { intros _. split; [rewrite K1, B1, LM; lia|exact VT]. }
      cbn [bind]. exists m4. split; [reflexivity|]. split; [intros a; rewrite J1, K1, B1; reflexivity|]. split; [rewrite J2, K2; exact B2|].
      split; [intros a Ha; rewrite J3, K3 by (destruct a; try contradiction; discriminate); auto|]. split; [|split].
      + intros h Hh Lh. assert (E1 : ev m4 AInN h = ev m3 AInN h) by (unfold ev; rewrite J3 by discriminate; reflexivity).
        assert (E2 : ev m4 AInP h = ev m3 AInP h) by (unfold ev; rewrite J3 by discriminate; reflexivity).
        rewrite E1, E2, K5, K6 by auto. destruct (gTipOf m h =? n) eqn:E; [auto|]. apply B4; auto. lia.
      + intros h Hh Lh. rewrite J5, J6 by auto. destruct (gTailOf m h =? n) eqn:E; [auto|].
        assert (E1 : ev m3 AOutN h = ev m2 AOutN h) by (unfold ev; rewrite K3 by discriminate; reflexivity).
        assert (E2 : ev m3 AOutP h = ev m2 AOutP h) by (unfold ev; rewrite K3 by discriminate; reflexivity).
        rewrite E1, E2. apply B5; auto. lia.
      + intros v Hv. rewrite J4. assert (E1 : ev m4 AInS v = ev m3 AInS v) by (unfold ev; rewrite J3 by discriminate; reflexivity).
        assert (E2 : ev m3 AOutS v = ev m2 AOutS v) by (unfold ev; rewrite K3 by discriminate; reflexivity).
        rewrite E1, E2, K4. destruct (v =? n) eqn:E; [replace v with n by (clear - E; lia); split; reflexivity|]. apply B6. clear - Hv E. lia. }
  destruct (G nV ltac:(lia) ltac:(lia)) as (m' & F & B1 & B2 & B3 & B4 & B5 & B6).
  exists m'. split; [exact F|]. split; [exact B2|]. split; [intros a; rewrite B1; apply LM|]. split; [exact B3|]. split.
  - constructor.
    + apply ring_ext with nO (gTailOf m); auto; [intros h Hh; symmetry; apply B5; auto; apply TAIL; auto|]. exact (nxt_ring N nV (proj1 CN) (gTailOf m) TAIL iO sO O3 O4).
    + intros h Hh. destruct (B5 h Hh (proj2 (TAIL h Hh))) as [-> _].
      destruct (nxt_ok N nV (proj1 CN) (gTailOf m) TAIL iO sO O3 O4 h Hh) as (X1 & X2 & X3). fold nO in X1, X2.
      destruct (B5 (nO h) X1 ltac:(apply TAIL; exact X1)) as [_ ->]. exact (prv_nxt N nV (proj1 CN) (gTailOf m) TAIL iO sO O3 O4 h Hh).
    + intros v Hv. destruct (B6 v Hv) as [_ ->]. destruct (hAt_ok N nV (proj1 CN) (gTailOf m) TAIL iO O4 v 0) as (X1 & X2 & _); [|split; [exact X1|exact X2]].
      split; [apply Z.le_refl|apply CO; auto].
  - constructor.
    + apply ring_ext with nI (gTipOf m); auto; [intros h Hh; symmetry; apply B4; auto; apply TIP; auto|]. exact (nxt_ring N nV (proj1 CN) (gTipOf m) TIP iI sI I3 I4).
    + intros h Hh. destruct (B4 h Hh (proj2 (TIP h Hh))) as [-> _].
      destruct (nxt_ok N nV (proj1 CN) (gTipOf m) TIP iI sI I3 I4 h Hh) as (X1 & X2 & X3). fold nI in X1, X2.
      destruct (B4 (nI h) X1 ltac:(apply TIP; exact X1)) as [_ ->]. exact (prv_nxt N nV (proj1 CN) (gTipOf m) TIP iI sI I3 I4 h Hh).
    + intros v Hv. destruct (B6 v Hv) as [-> _]. destruct (hAt_ok N nV (proj1 CN) (gTipOf m) TIP iI I4 v 0) as (X1 & X2 & _); [|split; [exact X1|exact X2]].
      split; [apply Z.le_refl|apply CI; auto].
Qed.
