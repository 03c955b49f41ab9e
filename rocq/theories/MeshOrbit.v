(** Orbits as explicit cycle lists; circulators and prevOrbit* terminate on valid meshes. *)
From Verif Require Import Base MeshModel MeshSpec MeshBase MeshExec.
Open Scope Z_scope.

(** [chain f a l b]: l lists a, f a, f (f a), ... and the step after the last element is b *)
Fixpoint chain (f : Z -> Z) (a : Z) (l : list Z) (b : Z) : Prop :=
  match l with [] => a = b | x :: t => x = a /\ chain f (f a) t b end.

Lemma chain_app f a l1 l2 b : chain f a (l1 ++ l2) b <-> exists c, chain f a l1 c /\ chain f c l2 b.
Proof.
  revert a; induction l1 as [|x t IH]; intros a; simpl.
  - split; [intros H; exists a; auto|intros (c & -> & H); auto].
  - rewrite IH. split; [intros (-> & c & H1 & H2); exists c; auto|intros (c & (-> & H1) & H2); eauto].
Qed.
Lemma chain_iter f a n : chain f a (map (fun i => Nat.iter i f a) (seq 0 n)) (Nat.iter n f a).
Proof.
  induction n as [|n IH]; [reflexivity|]. replace (S n) with (n + 1)%nat at 1 by lia. rewrite seq_app, map_app.
  apply chain_app. exists (Nat.iter n f a). split; auto. simpl. auto.
Qed.
Lemma chain_In_reach f a l b x : chain f a l b -> In x l -> reach f a x.
Proof.
  revert a; induction l as [|y t IH]; simpl; [tauto|]. intros a (-> & H) [->|Hin]; [apply reach_refl|].
  apply reach_trans with (f a); [apply reach_step|eauto].
Qed.
Lemma chain_step_In f a l b x : chain f a l b -> In x l -> f x = b \/ In (f x) l.
Proof.
  revert a; induction l as [|y t IH]; simpl; [tauto|]. intros a (-> & H) [->|Hin].
  - destruct t; simpl in *; [left; auto|right; right; left; apply (proj1 H)].
  - destruct (IH _ H Hin); auto.
Qed.
Lemma cycle_closed f s l x : l <> [] -> chain f s l s -> In x l -> In (f x) l.
Proof.
  intros Hl H Hin. destruct (chain_step_In _ _ _ _ _ H Hin) as [->|]; auto.
  destruct l; [congruence|]. simpl in H. left; apply H.
Qed.
Lemma cycle_start f s l : l <> [] -> chain f s l s -> In s l.
Proof. destruct l; [congruence|]. simpl. intros _ (-> & _). auto. Qed.
Lemma cycle_In_reach f s l x : l <> [] -> chain f s l s -> (In x l <-> reach f s x).
Proof.
  intros Hl H. split; [apply chain_In_reach with (1 := H)|].
  intros (n & <-). induction n as [|n IH]; simpl; [apply cycle_start with f; auto|].
  apply cycle_closed with s; auto.
Qed.
Lemma chain_ext f g a l b : (forall x, In x l -> f x = g x) -> chain f a l b -> chain g a l b.
Proof.
  revert a; induction l as [|y t IH]; simpl; auto. intros a H (-> & C). split; auto. rewrite <- H by auto.
  apply IH; auto.
Qed.
Lemma chain_last f a l b : l <> [] -> chain f a l b -> f (last l INVALID) = b /\ In (last l INVALID) l.
Proof.
  revert a; induction l as [|y t IH]; [congruence|]. intros a _ (-> & C). destruct t as [|z t].
  - simpl in *. auto.
  - destruct (IH (f a)) as [E I]; [congruence|exact C|]. split; [exact E|right; exact I].
Qed.

Section Cyc.
Context (L : Z -> Prop) (f : Z -> Z) (Lf : forall a, L a -> L (f a)) (N : Z).
Context (Lb : forall a, L a -> 0 <= a < N) (Linj : forall a b, L a -> L b -> f a = f b -> a = b).

Lemma least_period s n : (0 < n)%nat -> Nat.iter n f s = s ->
  exists p, (0 < p <= n)%nat /\ Nat.iter p f s = s /\ forall j, (0 < j < p)%nat -> Nat.iter j f s <> s.
Proof.
  revert s. induction n as [n IH] using lt_wf_ind. intros s Hn E.
  destruct (in_dec Z.eq_dec s (map (fun j => Nat.iter j f s) (seq 1 (n - 1)))) as [Hin|Hin].
  - apply in_map_iff in Hin as (j & Ej & Hj). apply in_seq in Hj. destruct (IH j ltac:(lia) s ltac:(lia) Ej) as (p & Hp & K).
    exists p. split; [lia|auto].
  - exists n. split; [lia|]. split; auto. intros j Hj Ej. apply Hin. apply in_map_iff. exists j. split; auto. apply in_seq. lia.
Qed.

Lemma orbit_list s : L s ->
  exists l, l <> [] /\ chain f s l s /\ NoDup l /\ (forall x, In x l <-> reach f s x) /\ Z.of_nat (length l) <= N /\ (forall x, In x l -> L x).
Proof.
  intros Hs. destruct (periodic L f Lf N Lb Linj s Hs) as (n & Hn & E).
  destruct (least_period s n ltac:(lia) E) as (p & Hp & Ep & Hmin).
  exists (map (fun i => Nat.iter i f s) (seq 0 p)).
  assert (Hne : map (fun i => Nat.iter i f s) (seq 0 p) <> []) by (destruct p; [lia|]; simpl; congruence).
  assert (C : chain f s (map (fun i => Nat.iter i f s) (seq 0 p)) s) by (pose proof (chain_iter f s p) as K; rewrite Ep in K; exact K).
  split; auto. split; auto. split; [|split; [|split]].
  - apply NoDup_nth with (d := 0). rewrite map_length, seq_length. intros i j Hi Hj.
    assert (K : forall i, (i < p)%nat -> nth i (map (fun i => Nat.iter i f s) (seq 0 p)) 0 = Nat.iter i f s).
    { intros k Hk. rewrite nth_indep with (d' := Nat.iter 0 f s) by (rewrite map_length, seq_length; auto).
      rewrite (map_nth (fun i => Nat.iter i f s)). rewrite seq_nth by auto. reflexivity. }
    rewrite !K by auto.
    assert (W : forall i j, (i < j < p)%nat -> Nat.iter i f s <> Nat.iter j f s).
    { intros a b Hab Eab. replace b with (a + (b - a))%nat in Eab by lia. rewrite iter_add in Eab.
      apply (Hmin (b - a)%nat); [lia|]. symmetry. eapply iter_inj with (L := L); eauto. apply iter_L; auto. }
    intros Eq. destruct (lt_eq_lt_dec i j) as [[H|H]|H]; auto; exfalso; [apply (W i j); auto|apply (W j i); auto].
  - intros x. apply cycle_In_reach; auto.
  - rewrite map_length, seq_length. lia.
  - intros x Hin. apply in_map_iff in Hin as (i & <- & _). apply iter_L; auto.
Qed.
End Cyc.

Lemma orbit_loop_chain fuel adv f s c l : l <> [] -> chain f c l s -> ~ In s (tl l) ->
  (forall x, In x l -> adv x = Ok (f x)) -> (length l <= fuel)%nat -> orbit_loop fuel adv s c = Ok l.
Proof.
  revert c l. induction fuel as [|k IH]; intros c l Hl C Hs Ha Hf; [destruct l; simpl in *; [congruence|lia]|].
  destruct l as [|x t]; [congruence|]. simpl in C. destruct C as (-> & C). simpl. rewrite Ha by (left; auto). simpl.
  destruct t as [|y t].
  - simpl in C. subst s. rewrite Z.eqb_refl. reflexivity.
  - simpl in C. destruct C as (-> & C). simpl in Hs. destruct (Z.eqb_spec (f c) s) as [E|E]; [exfalso; auto|].
    rewrite (IH (f c) (f c :: t)); auto; simpl; auto; try congruence; simpl in *; try lia.
    intros z [<-|Hz]; apply Ha; simpl; auto.
Qed.
Lemma prevFace_chain fuel m f h c l : l <> [] -> chain f c l h -> ~ In h (tl l) ->
  (forall x, In x l -> next m x = Ok (f x)) -> (length l <= fuel)%nat -> prevFace_loop fuel m h c = Ok (last l INVALID).
Proof.
  revert c l. induction fuel as [|k IH]; intros c l Hl C Hs Ha Hf; [destruct l; simpl in *; [congruence|lia]|].
  destruct l as [|x t]; [congruence|]. simpl in C. destruct C as (-> & C). cbn [prevFace_loop]. rewrite Ha by (left; auto). cbn [bind].
  destruct t as [|y t].
  - simpl in C. subst h. rewrite Z.eqb_refl. reflexivity.
  - simpl in C. destruct C as (-> & C). simpl in Hs. destruct (Z.eqb_spec (f c) h) as [E|E]; [exfalso; auto|].
    rewrite (IH (f c) (f c :: t)); auto; simpl; auto; try congruence; simpl in *; try lia.
    intros z [<-|Hz]; apply Ha; simpl; auto.
Qed.
Lemma prevVert_chain fuel m f h c l : l <> [] -> chain f c l h -> ~ In h (tl l) ->
  (forall x, In x l -> next m (tw x) = Ok (f x)) -> (length l <= fuel)%nat ->
  prevVert_loop fuel m h (tw c) = Ok (tw (last l INVALID)).
Proof.
  revert c l. induction fuel as [|k IH]; intros c l Hl C Hs Ha Hf; [destruct l; simpl in *; [congruence|lia]|].
  destruct l as [|x t]; [congruence|]. simpl in C. destruct C as (-> & C). cbn [prevVert_loop]. rewrite Ha by (left; auto). cbn [bind].
  destruct t as [|y t].
  - simpl in C. subst h. rewrite Z.eqb_refl. reflexivity.
  - simpl in C. destruct C as (-> & C). simpl in Hs. destruct (Z.eqb_spec (f c) h) as [E|E]; [exfalso; auto|].
    rewrite (IH (f c) (f c :: t)); auto; simpl; auto; try congruence; simpl in *; try lia.
    intros z [<-|Hz]; apply Ha; simpl; auto.
Qed.

(** ** consequences of validity *)
Section ValidFacts.
Context (m : mesh) (V : Valid m).
Let ST := va_st _ V.
Let CN := va_cn _ V.

Lemma liveH_range h : liveH m h -> 0 <= h < heFill m.
Proof. intros [H _]; exact H. Qed.
Lemma liveH_bnd h : liveH m h -> 0 <= h < heFill m /\ 0 <= h < zlen (heNext m) /\ 0 <= h < zlen (heVertex m) /\ 0 <= h < zlen (heFace m).
Proof. intros [H _]. destruct ST. lia. Qed.
Lemma liveV_bnd v : liveV m v -> 0 <= v < vFill m /\ 0 <= v < zlen (vHalfedge m).
Proof. intros [H _]. destruct ST. lia. Qed.
Lemma liveFL_bnd f : liveFL m f -> 0 <= f < fCap m /\ 0 <= f < zlen (fHalfedge m).
Proof. intros [[H _]|[H _]]; destruct ST; lia. Qed.
Lemma liveFL_nonneg f : liveFL m f -> 0 <= f.
Proof. intros H. apply liveFL_bnd in H. lia. Qed.
Lemma liveFL_notF f : liveFL m f -> fFill m <= f -> liveL m f.
Proof. intros [[H _]|H]; [lia|auto]. Qed.

Lemma next_live h : liveH m h -> next m h = Ok (nx m h).
Proof. intros H. apply next_ok. apply liveH_bnd in H. lia. Qed.
Lemma rot_live h : liveH m h -> rot m h = Ok (ro m h).
Proof. intros H. apply next_live. apply CN; auto. Qed.
Lemma ro_live h : liveH m h -> liveH m (ro m h).
Proof. intros H. apply CN, CN; auto. Qed.
Lemma ro_inj a b : liveH m a -> liveH m b -> ro m a = ro m b -> a = b.
Proof. intros Ha Hb E. apply tw_inj. eapply cn_inj; eauto; apply CN; auto. Qed.
Lemma ve_ro h : liveH m h -> ve m (ro m h) = ve m h.
Proof. intros H. unfold ro. rewrite (cn_vnx _ CN) by (apply CN; auto). rewrite tw_tw. reflexivity. Qed.

Lemma loopFuel_big : (Z.to_nat (heFill m) < loopFuel m)%nat.
Proof. unfold loopFuel. destruct ST. unfold zlen in *. lia. Qed.

Lemma face_cycle h : liveH m h ->
  exists l, l <> [] /\ chain (nx m) h l h /\ NoDup l /\ (forall x, In x l <-> liveH m x /\ fa m x = fa m h) /\ Z.of_nat (length l) <= heFill m.
Proof.
  intros Hh. destruct (orbit_list (liveH m) (nx m) (cn_nx _ CN) (heFill m) liveH_range (cn_inj _ CN) h Hh) as (l & Hl & C & ND & R & B & HL).
  exists l. split; [|split; [|split; [|split]]]; auto. intros x. split.
  - intros Hin. split; auto. apply R in Hin as (n & <-). induction n as [|n IH]; auto. simpl. rewrite (cn_fnx _ CN); auto. apply iter_L; auto. apply CN.
  - intros [Hx E]. apply R. apply CN; auto.
Qed.
Lemma vert_cycle h : liveH m h ->
  exists l, l <> [] /\ chain (ro m) h l h /\ NoDup l /\ (forall x, In x l <-> liveH m x /\ ve m x = ve m h) /\ Z.of_nat (length l) <= heFill m.
Proof.
  intros Hh. destruct (orbit_list (liveH m) (ro m) ro_live (heFill m) liveH_range ro_inj h Hh) as (l & Hl & C & ND & R & B & HL).
  exists l. split; [|split; [|split; [|split]]]; auto. intros x. split.
  - intros Hin. split; auto. apply R in Hin as (n & <-). induction n as [|n IH]; auto. simpl. rewrite ve_ro; auto. apply iter_L; auto. apply ro_live.
  - intros [Hx E]. apply R. apply CN; auto.
Qed.
Lemma cycle_tl_notin (s : Z) l : NoDup l -> (exists f, chain f s l s) -> ~ In s (tl l).
Proof. intros ND (f & C). destruct l; simpl; auto. destruct C as (-> & _). inversion ND; auto. Qed.

Lemma faceHalfedges_ok f : liveFL m f ->
  exists l, faceHalfedges m f = Ok l /\ l <> [] /\ chain (nx m) (fh m f) l (fh m f) /\ NoDup l /\ (forall x, In x l <-> liveH m x /\ fa m x = f).
Proof.
  intros Hf. destruct (cn_fh _ CN f Hf) as [Hh Ef]. destruct (face_cycle _ Hh) as (l & Hl & C & ND & R & B).
  exists l. rewrite Ef in R. split; [|auto]. unfold faceHalfedges. rewrite fHe_ok by (apply liveFL_bnd in Hf; lia). cbn [bind].
  apply orbit_loop_chain with (nx m); auto.
  - apply cycle_tl_notin; eauto.
  - intros x Hx. apply next_live. apply R; auto.
  - pose proof loopFuel_big. lia.
Qed.
Lemma vertHalfedges_ok v : liveV m v ->
  exists l, vertHalfedges m v = Ok l /\ l <> [] /\ chain (ro m) (vh m v) l (vh m v) /\ NoDup l /\ (forall x, In x l <-> liveH m x /\ ve m x = v).
Proof.
  intros Hv. destruct (cn_vh _ CN v Hv) as [Hh Ef]. destruct (vert_cycle _ Hh) as (l & Hl & C & ND & R & B).
  exists l. rewrite Ef in R. split; [|auto]. unfold vertHalfedges. rewrite vHe_ok by (apply liveV_bnd in Hv; lia). cbn [bind].
  apply orbit_loop_chain with (ro m); auto.
  - apply cycle_tl_notin; eauto.
  - intros x Hx. apply rot_live. apply R; auto.
  - pose proof loopFuel_big. lia.
Qed.
Lemma prev_ok h : liveH m h -> exists p, liveH m p /\ nx m p = h /\ fa m p = fa m h /\
  prevOrbitVertex m h = Ok p /\
  (forall m1, (forall x, liveH m x -> next m1 x = Ok (nx m x)) -> heFill m <= zlen (heNext m1) -> prevOrbitFace m1 h = Ok p).
Proof.
  intros Hh. destruct (face_cycle _ Hh) as (l & Hl & C & ND & R & B).
  destruct (chain_last _ _ _ _ Hl C) as [E I]. exists (last l INVALID).
  apply R in I as (Lp & Fp). split; auto. split; auto. split; auto. split.
  - destruct (vert_cycle _ Hh) as (l' & Hl' & C' & ND' & R' & B').
    destruct (chain_last _ _ _ _ Hl' C') as [E' I']. apply R' in I' as (Lp' & Vp').
    assert (last l INVALID = tw (last l' INVALID)) as ->.
    { eapply cn_inj; eauto. apply CN; auto. rewrite E. symmetry. exact E'. }
    apply prevVert_chain with (ro m); auto.
    + apply cycle_tl_notin; eauto.
    + intros x Hx. apply next_live. apply CN. apply R'; auto.
    + pose proof loopFuel_big. lia.
  - intros m1 H1 H2. apply prevFace_chain with (nx m); auto.
    + apply cycle_tl_notin; eauto.
    + intros x Hx. apply H1. apply R; auto.
    + unfold loopFuel, zlen in *. lia.
Qed.
Lemma adjVertices_ok v : liveV m v -> exists l, adjVertices m v = Ok l /\
  forall w, In w l <-> exists h, liveH m h /\ ve m h = v /\ ve m (tw h) = w.
Proof.
  intros Hv. destruct (vertHalfedges_ok v Hv) as (l & E & _ & _ & _ & R).
  exists (map (fun h => ve m (tw h)) l). split.
  - unfold adjVertices. rewrite E. cbn [bind]. assert (HL : forall x, In x l -> liveH m x) by (intros x Hx; apply R; auto).
    clear - V ST CN HL. induction l as [|h t IH]; [reflexivity|]. cbn [mapM]. rewrite next_live by (apply HL; left; auto). cbn [bind].
    assert (Hh : liveH m h) by (apply HL; left; auto).
    rewrite vertexOf_ok by (apply (cn_nx _ CN) in Hh; apply liveH_bnd in Hh; lia). cbn [bind].
    rewrite IH by (intros; apply HL; right; auto). cbn [bind map]. rewrite (cn_vnx _ CN) by auto. reflexivity.
  - intros w. rewrite in_map_iff. split.
    + intros (h & <- & Hh). apply R in Hh. exists h. tauto.
    + intros (h & H1 & H2 & H3). exists h. split; auto. apply R. auto.
Qed.
End ValidFacts.
