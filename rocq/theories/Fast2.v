(** The search keeps its invariants. *)
From Coq Require Import Reals Lra Permutation Wf_nat.
From Verif Require Import Base DataModel DataSpec DataProofs MeshModel MeshModel2 MeshSpec MeshBase MeshExec MeshOrbit MeshOpSpec MeshFlip MeshDataModel CollapseModel CollapseProofs
  GeoModel GeoVec IntrinsicModel IntrinsicSpec EmbeddedModel FrameModel FieldSpec Intrinsic1 Intrinsic2 Intrinsic3 Intrinsic4 Intrinsic8 Intrinsic9 Field2 Field3 PointModel FastModel FastSpec Fast1.
Open Scope R_scope.
Definition grows {A} (d d' : Z -> option A) : Prop := forall u b, d u = Some b -> d' u = Some b.
Lemma explained_grows m len d d' v r : grows d d' -> explained m len d v r -> explained m len d' v r.
Proof.
  intros G (k & Lk & Ek & [(a & Da & A1 & A2)|(X & x & y & th & Dx & Dy & Q)]); exists k; split; auto; split; auto; [left; exists a; split; auto|]. right. split; auto. exists x, y, th. split; [apply G; auto|]. split; [apply G; auto|]. exact Q.
Qed.
Lemma nth_error_parts {A} (l : list A) p e : nth_error l p = Some e -> l = firstn p l ++ e :: skipn (S p) l.
Proof. revert l. induction p as [|j IH]; intros [|x l] E; cbn in E; try discriminate; [injection E as ->; reflexivity|]. cbn [firstn app]. f_equal. apply IH. exact E. Qed.
Section M.
Context (m : mesh) (V : Valid m) (TR : triangular m) (len : mdata R) (MT : Metric m len) (angles : mdata R) (EA : cornerAngles m len = Ok angles) (src : Z -> bool) (q0 : list entry).
Let CN := va_cn m V.
Context (SRC : forall v, src v = true <-> exists r, In (r, v) q0) (LIVE : forall r v, In (r, v) q0 -> liveV m v).
Local Notation L := (lh len).
Definition finDist (s : search) (u : Z) : option R := if sFin s u then sDist s u else None.
Record Inv (s : search) (cur : R) (P : Z -> Prop) : Prop := {
  iv_fin : forall v, sFin s v = true -> liveV m v /\ exists b, sDist s v = Some b /\ b <= cur;
  iv_q : forall r v, In (r, v) (sQ s) -> liveV m v /\ cur <= r;
  iv_open : forall v, sFin s v = false -> src v = false -> match sDist s v with None => forall r, ~ In (r, v) (sQ s) | Some b => In (b, v) (sQ s) /\ forall r, In (r, v) (sQ s) -> b <= r end;
  iv_src : forall v, src v = true -> sFin s v = false -> sDist s v = None /\ forall r, In (r, v) (sQ s) <-> In (r, v) q0;
  iv_srcf : forall v, src v = true -> sFin s v = true -> exists r, sDist s v = Some r /\ In (r, v) q0 /\ forall r', In (r', v) q0 -> r <= r';
  iv_rel : forall h, liveH m h -> P (ve m h) -> src (ve m (tw h)) = false -> exists a b, sDist s (ve m h) = Some a /\ sDist s (ve m (tw h)) = Some b /\ b <= a + L h;
  iv_exp : forall v b, src v = false -> sDist s v = Some b -> explained m len (finDist s) v b;
  iv_P : forall u, P u -> sFin s u = true;
  iv_walk : forall v b, sDist s v = Some b -> exists u, src u = true /\ walk m u v;
  iv_cnt : exists l, NoDup l /\ (forall v, In v l <-> sFin s v = true) /\ Z.of_nat (length l) = sFound s }.
Definition better (s s' : search) : Prop := sFin s' = sFin s /\ (forall u, sFin s u = true -> sDist s' u = sDist s u) /\ forall u b, sDist s u = Some b -> exists b', sDist s' u = Some b' /\ b' <= b.
Lemma better_refl s : better s s. Proof. split; auto. split; auto. intros u b E. exists b. split; auto. lra. Qed.
Lemma better_trans a b c : better a b -> better b c -> better a c.
Proof. intros (F1 & K1 & G1) (F2 & K2 & G2). split; [congruence|]. split; [intros u Hu; rewrite K2 by (rewrite F1; auto); auto|]. intros u x E. apply G1 in E as (y & E & Hy). apply G2 in E as (z & E & Hz). exists z. split; auto. lra. Qed.

Lemma offer_inv s cur P v nd : Inv s cur P -> liveV m v -> sFin s v = false -> src v = false -> cur <= nd -> explained m len (finDist s) v nd -> (exists u, src u = true /\ walk m u v) ->
  Inv (offer s v nd) cur P /\ better s (offer s v nd) /\ exists b, sDist (offer s v nd) v = Some b /\ b <= nd.
Proof.
  intros I Lv Fv Sv Hc Ex Wk. unfold offer.
  assert (W : (forall d, sDist s v = Some d -> nd < d) -> let s' := mkSearch (setf (sDist s) v (Some nd)) (sFin s) ((nd, v) :: sQ s) (sFound s) in Inv s' cur P /\ better s s' /\ exists b, sDist s' v = Some b /\ b <= nd).
  { intros Hd s'. assert (O : forall u, u <> v -> sDist s' u = sDist s u) by (intros u Hu; cbn; unfold setf; destruct (Z.eqb_spec u v); congruence). assert (O1 : sDist s' v = Some nd) by (cbn; unfold setf; rewrite Z.eqb_refl; reflexivity).
    assert (NF : forall u, sFin s u = true -> u <> v) by (intros u Hu ->; congruence). assert (FD : grows (finDist s) (finDist s')). { intros u b E. unfold finDist in *. cbn [s' sFin]. destruct (sFin s u) eqn:F; [|discriminate]. rewrite O; auto. }
    split; [|split].
    - constructor; cbn [s' sFin sQ sFound].
      + intros u Hu. destruct (iv_fin _ _ _ I u Hu) as (A & b & B & C). split; auto. exists b. split; auto. rewrite O; auto.
      + intros r u [E|E]; [injection E as <- <-; auto|apply (iv_q _ _ _ I); auto].
      + intros u Hf Hs. destruct (Z.eq_dec u v) as [->|N].
        * rewrite O1. split; [left; auto|]. intros r [E|E]; [injection E as <-; lra|]. pose proof (iv_open _ _ _ I v Hf Hs) as Q. destruct (sDist s v) as [d|] eqn:Ed; [destruct Q as [_ Q]; apply Q in E; specialize (Hd d eq_refl); lra|exfalso; eapply Q; eauto].
        * rewrite O by auto. pose proof (iv_open _ _ _ I u Hf Hs) as Q. destruct (sDist s u); [destruct Q as [Q1 Q2]; split; [right; auto|]; intros r' [E|E]; [injection E; congruence|auto]|]. intros r [E|E]; [injection E; congruence|eapply Q; eauto].
      + intros u Hs Hf. assert (u <> v) by congruence. destruct (iv_src _ _ _ I u Hs Hf) as [A B]. split; [rewrite O; auto|]. intros r. rewrite <- B. cbn. split; [intros [E|E]; [injection E; congruence|auto]|auto].
      + intros u Hs Hf. destruct (iv_srcf _ _ _ I u Hs Hf) as (r & A & B). exists r. split; [rewrite O; auto|auto].
      + intros h Lh Hp Hs. destruct (iv_rel _ _ _ I h Lh Hp Hs) as (a & b & A & B & C). exists a. assert (N : ve m h <> v) by (apply NF; apply (iv_P _ _ _ I); auto). rewrite O by auto. destruct (Z.eq_dec (ve m (tw h)) v) as [E|N2]; [rewrite E in *; exists nd; rewrite O1; split; auto; split; auto; specialize (Hd b B); lra|exists b; rewrite O; auto].
      + intros u b Hs E. apply (explained_grows _ _ (finDist s)); auto. destruct (Z.eq_dec u v) as [->|N]; [rewrite O1 in E; injection E as <-; auto|rewrite O in E by auto; apply (iv_exp _ _ _ I); auto].
      + apply (iv_P _ _ _ I).
      + intros u b E. destruct (Z.eq_dec u v) as [->|N]; auto. rewrite O in E by auto. eapply (iv_walk _ _ _ I); eauto.
      + apply (iv_cnt _ _ _ I).
    - split; [reflexivity|]. split; [intros u Hu; apply O; auto|]. intros u b E. destruct (Z.eq_dec u v) as [->|N]; [exists nd; split; auto; specialize (Hd b E); lra|exists b; rewrite O by auto; split; auto; lra].
    - exists nd. split; auto. lra. }
  destruct (sDist s v) as [d|] eqn:Ed; [|apply W; discriminate]. destruct (Rlt_dec nd d) as [Hl|Hl]; [apply W; intros d' E; injection E as <-; auto|]. split; auto. split; [apply better_refl|]. exists d. split; auto. lra.
Qed.
Lemma len_at h : liveH m h -> dataAt len (edge h) = Ok (L h).
Proof. intros K. rewrite (dataAt_in 0) by (rewrite (mt_size _ _ MT); apply (e_cap m V), edge_live; auto). reflexivity. Qed.
Lemma interior_at h : liveH m h -> isInterior m h = Ok (negb (extb m h)). Proof. intros K. rewrite isInterior_ok by auto. reflexivity. Qed.
Lemma angle_at h : liveH m h -> ~ ext m h -> exists t, dataAt angles h = Ok t /\ isAngle (L h) (L (nx m (nx m h))) (L (nx m h)) t.
Proof.
  intros K X. destruct (cornerAngles_ok m V TR len MT) as (d & E & Ld & Hd). assert (d = angles) as -> by congruence. exists (valAt angles h). split; [apply (dataAt_in 0); rewrite Ld; apply (he_cap m V); auto|]. rewrite Hd by (split; auto). apply (angH_is m V TR len MT); split; auto.
Qed.
(** the third vertex of a triangle; the corner is that of k, one of the other two vertices is the one just accepted *)
Lemma third_inv s cur P c g heA heB neigh : Inv s cur P -> liveH m g -> ~ ext m g -> sFin s c = true -> sDist s c = Some cur -> (forall u, sFin s u = true -> u <> c -> P u) -> (sFin s neigh = true \/ src neigh = true) ->
  (heB = nx m (nx m g) /\ heA = nx m g /\ ve m g = neigh /\ ve m (nx m g) = c) \/ (heA = nx m (nx m g) /\ heB = nx m g /\ ve m g = c /\ ve m (nx m g) = neigh) ->
  exists s', third m len angles src s g heA heB neigh cur = Ok s' /\ Inv s' cur P /\ better s s'.
Proof.
  intros I Lg Xg Fc Dc HP HN CASE. destruct (three m V TR g (conj Lg Xg)) as (E3 & _). assert (L1 : liveH m (nx m g)) by (apply CN; auto). assert (L2 : liveH m (nx m (nx m g))) by (apply CN; auto). set (k := nx m (nx m g)) in *.
  assert (Xk : ~ ext m k) by (unfold k; rewrite !(ext_nx m V) by auto; auto). assert (VK : ve m k = ve m (tw (nx m g))) by (apply (cn_vnx _ CN); auto). assert (VG : ve m g = ve m (tw k)) by (rewrite <- (cn_vnx _ CN) by auto; rewrite E3; reflexivity). assert (VG1 : ve m (nx m g) = ve m (tw g)) by (apply (cn_vnx _ CN); auto).
  unfold third. rewrite (next_live m V g) by auto. cbn [bind]. rewrite (next_live m V) by auto. cbn [bind]. fold k. rewrite (vertexOf_live m V) by auto. cbn [bind].
  destruct (negb (sFin s (ve m k)) && negb (src (ve m k)))%bool eqn:B; [|exists s; split; auto; split; auto; apply better_refl]. apply andb_prop in B as [B1 B2]. apply negb_true_iff in B1, B2.
  assert (LA : liveH m heA) by (destruct CASE as [(-> & -> & _)|(-> & -> & _)]; auto). assert (LB : liveH m heB) by (destruct CASE as [(-> & -> & _)|(-> & -> & _)]; auto).
  rewrite (len_at heB), (len_at heA) by auto. cbn [bind]. destruct (angle_at k L2 Xk) as (th & Et & At). rewrite Et. cbn [bind]. set (nd := eikonal (L heA) (L heB) th (sDist s neigh) cur).
  assert (Lv : liveV m (ve m k)) by (apply CN; auto). pose proof (mt_pos _ _ MT heA LA) as PA. pose proof (mt_pos _ _ MT heB LB) as PB.
  assert (FN : forall x, sDist s neigh = Some x -> sFin s neigh = true /\ x <= cur). { intros x E. assert (F : sFin s neigh = true). { destruct (sFin s neigh) eqn:F; auto. destruct HN as [HN|HN]; [congruence|]. destruct (iv_src _ _ _ I neigh HN F) as [Q _]. congruence. } split; auto. destruct (iv_fin _ _ _ I neigh F) as (_ & b & Eb & Hb). assert (b = x) by congruence. subst b. auto. }
  (* halfedges from the new vertex to the other two *)
  assert (KA : exists ka, liveH m ka /\ ve m ka = ve m k /\ ve m (tw ka) = c /\ L ka = L heA).
  { destruct CASE as [(E1 & E2 & Q1 & Q2)|(E1 & E2 & Q1 & Q2)]; [exists (tw heA)|exists heA]; subst heA; [|rewrite <- VG; auto]. split; [apply CN; auto|]. split; [symmetry; exact VK|]. rewrite tw_tw. split; auto. apply lh_tw. }
  assert (KB : exists kb, liveH m kb /\ ve m kb = ve m k /\ ve m (tw kb) = neigh /\ L kb = L heB).
  { destruct CASE as [(E1 & E2 & Q1 & Q2)|(E1 & E2 & Q1 & Q2)]; [exists heB|exists (tw heB)]; subst heB; [rewrite <- VG; auto|]. split; [apply CN; auto|]. split; [symmetry; exact VK|]. rewrite tw_tw. split; auto. apply lh_tw. }
  assert (FDc : finDist s c = Some cur) by (unfold finDist; rewrite Fc; auto). assert (FDn : forall x, sDist s neigh = Some x -> finDist s neigh = Some x) by (intros x E; unfold finDist; destruct (FN x E) as [-> _]; auto).
  assert (AT : 0 < th < PI) by apply At.
  assert (G : cur <= nd /\ explained m len (finDist s) (ve m k) nd).
  { pose proof (eikonal_spec (L heA) (L heB) th (sDist s neigh) cur PA PB AT (fun x E => proj2 (FN x E))) as ES. cbv zeta in ES. fold nd in ES. destruct ES as [E|(x & Ex & [E|(Q1 & Q2 & Q3)])].
    - split; [lra|]. destruct KA as (ka & K1 & K2 & K3 & K4). exists ka. split; auto. split; auto. left. exists cur. rewrite K3, K4. split; auto. lra.
    - destruct KB as (kb & K1 & K2 & K3 & K4). destruct (FN x Ex) as [Fn Hx]. split; [|exists kb; split; auto; split; auto; left; exists x; rewrite K3, K4; split; [apply FDn; auto|]; lra].
      destruct (Z.eq_dec neigh c) as [Ec|Nc]; [subst neigh; assert (x = cur) by congruence; lra|]. destruct (iv_rel _ _ _ I (tw kb)) as (a & b & A & B & C); [apply CN; auto|rewrite K3; apply HP; auto|rewrite tw_tw, K2; auto|].
      rewrite tw_tw, K2 in B. rewrite K3 in A. assert (a = x) by congruence. subst a. rewrite lh_tw, K4 in C. pose proof (iv_open _ _ _ I _ B1 B2) as Q. rewrite B in Q. destruct Q as [Q _]. apply (iv_q _ _ _ I) in Q as [_ Q]. lra.
    - split; [lra|]. exists k. split; auto. split; auto. right. split; auto. apply FDn in Ex. assert (EK : nx m k = g) by exact E3. rewrite EK in At |- *. pose proof (mt_pos _ _ MT _ L1) as P1. pose proof (mt_pos _ _ MT _ Lg) as PG. pose proof (mt_pos _ _ MT _ L2) as PK.
      destruct CASE as [(E1 & E2 & N1 & N2)|(E1 & E2 & N1 & N2)]; subst heA heB.
      + exists x, cur, th. rewrite N1, N2. split; auto. split; auto. split; auto. split; auto. split; auto. destruct Q3 as [Q3|Q3]; [left; auto|right]. apply Q3; auto. destruct At as [_ At]. rewrite At. ring.
      + exists cur, x, th. rewrite N1, N2. split; auto. split; auto. split; auto. split; auto. split; auto. destruct Q3 as [Q3|Q3]; [left; apply planeFront_swap; auto|right]. apply overHeight_swap, Q3; auto. destruct At as [_ At]. rewrite At. ring. }
  destruct G as [G1 G2]. destruct (offer_inv s cur P (ve m k) nd I Lv B1 B2 G1 G2) as (A & B & _).
  - destruct KA as (ka & K1 & K2 & K3 & K4). destruct (iv_walk _ _ _ I c cur Dc) as (u & Su & Wu). exists u. split; auto. rewrite <- K2. rewrite <- (tw_tw ka). apply walk_on; [rewrite K3; auto|apply CN; auto].
  - eexists. split; [reflexivity|]. split; auto.
Qed.
Lemma visit_inv s cur P c he : Inv s cur P -> liveH m he -> ve m (tw he) = c -> sFin s c = true -> sDist s c = Some cur -> (forall u, sFin s u = true -> u <> c -> P u) ->
  exists s', visit m len angles src cur s he = Ok s' /\ Inv s' cur P /\ better s s' /\ (sFin s (ve m he) = false -> src (ve m he) = false -> exists b, sDist s' (ve m he) = Some b /\ b <= cur + L he).
Proof.
  intros I Lh Eh Fc Dc HP. assert (Lt : liveH m (tw he)) by (apply CN; auto). unfold visit. rewrite (vertexOf_live m V) by auto. cbn [bind]. pose proof (mt_pos _ _ MT he Lh) as PL.
  destruct (negb (sFin s (ve m he)) && negb (src (ve m he)))%bool eqn:B.
  - apply andb_prop in B as [B1 B2]. apply negb_true_iff in B1, B2. rewrite len_at by auto. cbn [bind]. destruct (offer_inv s cur P (ve m he) (cur + L he) I) as (A & Q & C); auto; [apply CN; auto|lra| | |eexists; split; [reflexivity|]; auto].
    + exists he. split; auto. split; auto. left. exists cur. rewrite Eh. unfold finDist. rewrite Fc. split; auto. lra.
    + destruct (iv_walk _ _ _ I c cur Dc) as (u & Su & Wu). exists u. split; auto. rewrite <- (tw_tw he). apply walk_on; [rewrite Eh; auto|auto].
  - assert (HN : sFin s (ve m he) = true \/ src (ve m he) = true) by (destruct (sFin s (ve m he)), (src (ve m he)); cbn in B; auto; discriminate).
    rewrite (interior_at he) by auto. cbn [bind].
    assert (S1 : exists s1, (if negb (extb m he) then let* h1 := next m he in let* h2 := next m h1 in third m len angles src s he h1 h2 (ve m he) cur else Ok s) = Ok s1 /\ Inv s1 cur P /\ better s s1).
    { destruct (extb m he) eqn:X; cbn [negb]; [exists s; split; auto; split; auto; apply better_refl|]. assert (X' : ~ ext m he) by (rewrite <- (extb_spec m); congruence). rewrite (next_live m V) by auto. cbn [bind]. rewrite (next_live m V) by (apply CN; auto). cbn [bind].
      apply (third_inv s cur P c); auto. left. split; auto. split; auto. split; auto. rewrite (cn_vnx _ CN) by auto. auto. }
    destruct S1 as (s1 & E1 & I1 & G1). rewrite E1. cbn [bind]. rewrite (interior_at (tw he)) by auto. cbn [bind]. pose proof G1 as (GF & GK & GD). assert (Fc1 : sFin s1 c = true) by (rewrite GF; auto). assert (Dc1 : sDist s1 c = Some cur) by (rewrite GK; auto).
    assert (S2 : exists s2, (if negb (extb m (tw he)) then let* t1 := next m (tw he) in let* t2 := next m t1 in third m len angles src s1 (tw he) t2 t1 (ve m he) cur else Ok s1) = Ok s2 /\ Inv s2 cur P /\ better s1 s2).
    { destruct (extb m (tw he)) eqn:X; cbn [negb]; [exists s1; split; auto; split; auto; apply better_refl|]. assert (X' : ~ ext m (tw he)) by (rewrite <- (extb_spec m); congruence). rewrite (next_live m V) by auto. cbn [bind]. rewrite (next_live m V) by (apply CN; auto). cbn [bind].
      apply (third_inv s1 cur P c); auto; [intros u Hu; rewrite GF in Hu; auto|rewrite GF; auto|]. right. split; auto. split; auto. split; auto. rewrite (cn_vnx _ CN) by auto. rewrite tw_tw. auto. }
    destruct S2 as (s2 & E2 & I2 & G2). rewrite E2. exists s2. split; auto. split; auto. split; [eapply better_trans; eauto|]. intros F S. destruct HN; congruence.
Qed.
(** all the incoming halfedges *)
Lemma visits_inv cur P c : forall hs s, Inv s cur P -> (forall h, In h hs -> liveH m h /\ ve m (tw h) = c) -> sFin s c = true -> sDist s c = Some cur -> (forall u, sFin s u = true -> u <> c -> P u) ->
  exists s', foldM (visit m len angles src cur) hs s = Ok s' /\ Inv s' cur P /\ better s s' /\ (forall h, In h hs -> sFin s (ve m h) = false -> src (ve m h) = false -> exists b, sDist s' (ve m h) = Some b /\ b <= cur + L h).
Proof.
  induction hs as [|h t IH]; intros s I HH Fc Dc HP.
  - exists s. split; auto. split; auto. split; [apply better_refl|]. intros h [].
  - destruct (HH h (or_introl eq_refl)) as [Lh Eh]. destruct (visit_inv s cur P c h I Lh Eh Fc Dc HP) as (s1 & E1 & I1 & G1 & R1). pose proof G1 as (GF & GK & GD).
    destruct (IH s1 I1) as (s2 & E2 & I2 & G2 & R2); [intros x Hx; apply HH; right; auto|rewrite GF; auto|rewrite GK; auto|intros u Hu; rewrite GF in Hu; auto|].
    exists s2. cbn [foldM]. rewrite E1. cbn [bind]. split; auto. split; auto. split; [eapply better_trans; eauto|]. intros x [<-|Hx] Fx Sx.
    + destruct (R1 Fx Sx) as (b & Eb & Hb). destruct G2 as (_ & _ & GD2). destruct (GD2 _ _ Eb) as (b' & Eb' & Hb'). exists b'. split; auto. lra.
    + apply R2; auto. rewrite GF. auto.
Qed.
(** accepting the least entry *)
Lemma accept_inv s cur c q1 q2 P : Inv s cur P -> (forall u, sFin s u = true -> P u) -> sQ s = q1 ++ (cur, c) :: q2 -> (forall r v, In (r, v) (sQ s) -> cur <= r) -> sFin s c = false ->
  let s1 := mkSearch (setf (sDist s) c (Some cur)) (setf (sFin s) c true) (q1 ++ q2) (sFound s + 1) in
  exists s2, (let* hs := incoming m c in foldM (visit m len angles src cur) hs s1) = Ok s2 /\ Inv s2 cur (fun u => sFin s2 u = true) /\ forall u, sFin s2 u = setf (sFin s) c true u.
Proof.
  intros I HP Eq Least Fc s1. assert (Inq : In (cur, c) (sQ s)) by (rewrite Eq; apply in_elt). destruct (iv_q _ _ _ I _ _ Inq) as [Lc _].
  assert (FS : forall u, sFin s1 u = true <-> sFin s u = true \/ u = c). { intros u. cbn. unfold setf. destruct (Z.eqb_spec u c); intuition congruence. } assert (F1 : sFin s1 c = true) by (apply FS; auto). assert (D1 : sDist s1 c = Some cur) by (cbn; unfold setf; rewrite Z.eqb_refl; auto). assert (O : forall u, u <> c -> sDist s1 u = sDist s u) by (intros u Hu; cbn; unfold setf; destruct (Z.eqb_spec u c); congruence).
  assert (OF : forall u, u <> c -> sFin s1 u = sFin s u) by (intros u Hu; cbn; unfold setf; destruct (Z.eqb_spec u c); congruence).
  assert (QS : forall e, In e (sQ s1) -> In e (sQ s)) by (intros e He; rewrite Eq; cbn in He; apply in_app_iff in He; apply in_app_iff; cbn; tauto). assert (QR : forall e, In e (sQ s) -> e <> (cur, c) -> In e (sQ s1)). { intros e He Ne. rewrite Eq in He. cbn. apply in_app_iff in He. apply in_app_iff. cbn in He. destruct He as [He|[He|He]]; auto. congruence. }
  (* an open vertex that is no source keeps its distance *)
  assert (SAME : src c = false -> sDist s c = Some cur). { intros Sc. pose proof (iv_open _ _ _ I c Fc Sc) as Q. destruct (sDist s c) as [b|] eqn:E; [|exfalso; eapply Q; eauto]. destruct Q as [Q1 Q2]. apply Least in Q1. apply Q2 in Inq. f_equal. lra. }
  assert (GR : grows (finDist s) (finDist s1)). { intros u b E. unfold finDist in *. destruct (sFin s u) eqn:F; [|discriminate]. assert (u <> c) by congruence. rewrite OF, F, O by auto. auto. }
  assert (I1 : Inv s1 cur (fun u => sFin s u = true)).
  { constructor.
    - intros v Hv. apply FS in Hv. destruct (Z.eq_dec v c) as [->|N]; [split; auto; exists cur; split; auto; lra|]. destruct Hv as [Hv|]; [|congruence]. destruct (iv_fin _ _ _ I v Hv) as (A & b & B & C). split; auto. exists b. rewrite O by auto. auto.
    - intros r v He. apply QS in He. split; [apply (iv_q _ _ _ I) in He; tauto|eapply Least; eauto].
    - intros v Hf Hs. assert (N : v <> c) by congruence. rewrite OF in Hf by auto. rewrite O by auto. pose proof (iv_open _ _ _ I v Hf Hs) as Q. destruct (sDist s v); [destruct Q as [Q1 Q2]; split; [apply QR; auto; congruence|]; intros r' He; apply Q2; auto|intros r He; eapply Q; eauto].
    - intros v Hs Hf. assert (N : v <> c) by congruence. rewrite OF in Hf by auto. rewrite O by auto. destruct (iv_src _ _ _ I v Hs Hf) as [A B]. split; auto. intros r. rewrite <- B. split; auto. intros He. apply QR; auto. congruence.
    - intros v Hs Hf. destruct (Z.eq_dec v c) as [->|N]; [|rewrite OF in Hf by auto; rewrite O by auto; apply (iv_srcf _ _ _ I); auto]. exists cur. split; auto. destruct (iv_src _ _ _ I c Hs Fc) as [A B]. split; [apply B; auto|]. intros r' Hr. apply B in Hr. eapply Least; eauto.
    - intros h Lh Hp Hs. destruct (iv_rel _ _ _ I h Lh (HP _ Hp) Hs) as (a & b & A & B & C). exists a, b. assert (ve m h <> c) by congruence. rewrite O by auto. split; auto. split; auto. destruct (Z.eq_dec (ve m (tw h)) c) as [E|N]; [|rewrite O; auto]. rewrite E in *. rewrite D1. rewrite SAME in B by auto. auto.
    - intros v b Hs E. apply (explained_grows _ _ (finDist s)); auto. apply (iv_exp _ _ _ I); auto. destruct (Z.eq_dec v c) as [->|N]; [rewrite D1 in E; rewrite SAME; auto|rewrite O in E; auto].
    - intros u Hu. apply FS. auto.
    - intros v b E. destruct (Z.eq_dec v c) as [->|N]; [|rewrite O in E by auto; eapply (iv_walk _ _ _ I); eauto]. destruct (src c) eqn:Sc; [exists c; split; auto; constructor|]. eapply (iv_walk _ _ _ I). apply SAME. auto.
    - destruct (iv_cnt _ _ _ I) as (l & ND & Il & Cl). exists (c :: l). split; [constructor; auto; rewrite Il; congruence|]. split; [|cbn [length]; cbn; lia]. intros v. rewrite FS. cbn. rewrite Il. intuition congruence. }
  destruct (incoming_list m c V Lc) as (hs & EH & ND & IH). rewrite EH. cbn [bind].
  destruct (visits_inv cur (fun u => sFin s u = true) c hs s1 I1) as (s2 & E2 & I2 & (GF & GK & GD) & R2); auto; [intros h Hh; apply IH in Hh; auto|intros u Hu N; apply FS in Hu as [Hu|Hu]; congruence|].
  exists s2. split; auto. split; [|intros u; rewrite GF; reflexivity]. destruct I2. constructor; auto.
  intros h Lh Hp Hs. rewrite GF in Hp. apply FS in Hp as [Hp|Hp]; auto. assert (D2 : sDist s2 c = Some cur) by (rewrite GK; auto). rewrite Hp, D2. exists cur. pose proof (mt_pos _ _ MT h Lh) as PL. destruct (sFin s1 (ve m (tw h))) eqn:F.
  - destruct (iv_fin _ _ _ I1 _ F) as (_ & b & Eb & Hb). exists b. rewrite GK by auto. split; auto. split; auto. lra.
  - destruct (R2 (tw h)) as (b & Eb & Hb); auto; [apply IH; split; [apply CN; auto|rewrite tw_tw; auto]|]. exists b. split; auto. split; auto. rewrite lh_tw in Hb. auto.
Qed.
(** the loop *)
Lemma loop_ok pick : leastPick pick -> forall n k s cur, Inv s cur (fun u => sFin s u = true) -> (Z.to_nat (nVertices m) - Z.to_nat (sFound s) <= n)%nat -> (length (sQ s) <= k)%nat ->
  exists fuel0 s' cur', (forall fuel, (fuel0 <= fuel)%nat -> searchLoop m len angles src fuel pick s = Some (Ok s')) /\ Inv s' cur' (fun u => sFin s' u = true) /\ ((nVertices m <= sFound s')%Z \/ sQ s' = []).
Proof.
  intros PK. induction n as [n IHn] using lt_wf_ind. induction k as [k IHk] using lt_wf_ind. intros s cur I Hn Hk.
  destruct (Z.leb_spec (nVertices m) (sFound s)) as [Z|Z]. { exists 1%nat, s, cur. split; auto. intros [|f] Hf; [lia|]. cbn [searchLoop]. rewrite (proj2 (Z.leb_le _ _)) by auto. reflexivity. }
  assert (ZB : (nVertices m <=? sFound s)%Z = false) by (apply Z.leb_gt; auto). destruct (sQ s) as [|e0 q'] eqn:Eq. { exists 1%nat, s, cur. split; [|rewrite Eq; auto]. intros [|f] Hf; [lia|]. cbn [searchLoop]. rewrite ZB, Eq. destruct (pick []); reflexivity. }
  destruct (PK (sQ s)) as ([r c] & En & Least); [rewrite Eq; discriminate|]. rewrite <- Eq in *. clear Eq e0 q'. set (p := pick (sQ s)) in *. assert (SP : sQ s = firstn p (sQ s) ++ (r, c) :: skipn (S p) (sQ s)).
  { apply nth_error_parts, En. }
  assert (LQ : forall r' v, In (r', v) (sQ s) -> r <= r') by (intros r' v He; apply (Least (r', v) He)). assert (Inq : In (r, c) (sQ s)) by (eapply nth_error_In; eauto). destruct (iv_q _ _ _ I _ _ Inq) as [Lc Hcr].
  assert (LEN : (length (firstn p (sQ s) ++ skipn (S p) (sQ s)) < length (sQ s))%nat) by (rewrite SP at 3; rewrite !app_length; cbn [length]; lia).
  destruct (sFin s c) eqn:Fc.
  - set (s1 := mkSearch (sDist s) (sFin s) (firstn p (sQ s) ++ skipn (S p) (sQ s)) (sFound s)). assert (QS : forall e, In e (sQ s1) -> In e (sQ s)) by (intros e He; rewrite SP; cbn in He; apply in_app_iff in He; apply in_app_iff; cbn; tauto).
    assert (QR : forall e, In e (sQ s) -> snd e <> c -> In e (sQ s1)). { intros e He Ne. rewrite SP in He. cbn. apply in_app_iff in He. apply in_app_iff. cbn in He. destruct He as [He|[He|He]]; auto. subst e. cbn in Ne. congruence. }
    destruct (IHk (length (sQ s1))) with (s := s1) (cur := cur) as (f0 & s' & cur' & R & Q); [unfold s1; cbn [sQ]; lia| |exact Hn|auto|].
    { destruct I. constructor; auto; cbn [s1 sFin sDist].
      - intros v Hf Hs. assert (v <> c) by congruence. specialize (iv_open0 v Hf Hs). destruct (sDist s v); [destruct iv_open0 as [Q1 Q2]; split; [apply QR; auto|]; intros r' He; apply Q2; apply QS; auto|intros r' He; eapply iv_open0; apply QS; eauto].
      - intros v Hs Hf. assert (v <> c) by congruence. destruct (iv_src0 v Hs Hf) as [A B]. split; auto. intros r'. rewrite <- B. split; [apply QS|intros He; apply QR; auto]. }
    exists (S f0), s', cur'. split; auto. intros [|f] Hf; [lia|]. cbn [searchLoop]. rewrite ZB. fold p. rewrite En. cbn [sFin]. rewrite Fc. apply R. lia.
  - assert (I' : Inv s r (fun u => sFin s u = true)). { destruct I. constructor; auto. intros v Hv. destruct (iv_fin0 v Hv) as (A & b & B & C). split; auto. exists b. split; auto. lra. intros r' v He. split; [apply (iv_q0 _ _ He)|eapply LQ; eauto]. }
    destruct (accept_inv s r c _ _ _ I' (fun u H => H) SP LQ Fc) as (s2 & E2 & I2 & F2).
    assert (CT : sFound s2 = (sFound s + 1)%Z). { destruct (iv_cnt _ _ _ I) as (l & ND & Il & Cl). destruct (iv_cnt _ _ _ I2) as (l2 & ND2 & Il2 & Cl2). assert (LE : length l2 = length (c :: l)). { apply Permutation_length, NoDup_Permutation; auto; [constructor; auto; rewrite Il; congruence|]. intros v. rewrite Il2, F2. unfold setf. cbn. rewrite Il. destruct (Z.eqb_spec v c); intuition congruence. } cbn [length] in LE. lia. }
    assert (0 <= sFound s)%Z by (destruct (iv_cnt _ _ _ I) as (l & _ & _ & Cl); lia).
    destruct (IHn (Z.to_nat (nVertices m) - Z.to_nat (sFound s2))%nat) with (k := length (sQ s2)) (s := s2) (cur := r) as (f0 & s' & cur' & R & Q); auto; [lia|].
    exists (S f0), s', cur'. split; auto. intros [|f] Hf; [lia|]. cbn [searchLoop]. rewrite ZB. fold p. rewrite En. cbn [sFin sDist sQ sFound]. rewrite Fc. match goal with |- match ?e with Ok _ => _ | _ => _ end = _ => assert (XX : e = Ok s2) by exact E2; rewrite XX end. apply R. lia.
Qed.
End M.
