(** Two changes of a surface map that a collapse is made of: contracting an edge, and closing a two-sided face. They are
    carried out on an abstract map, so that only the end result has to be compared with the arrays. *)
From Verif Require Import Base MeshModel MeshSpec MeshBase MeshOrbit MeshAlloc MeshFlip MeshInsert MeshConnect.
Open Scope Z_scope.

(** halfedges, vertices, faces and loops alive; which face indices are boundary loops; incidences *)
Record cmap := mkC { cL : Z -> Prop; cV : Z -> Prop; cF : Z -> Prop; cX : Z -> Prop; cnx : Z -> Z; cve : Z -> Z; cfa : Z -> Z; cvh : Z -> Z; cfh : Z -> Z }.
Record CConn (N : Z) (c : cmap) : Prop := {
  c_rng : forall h, cL c h -> 0 <= h < N;
  c_tw : forall h, cL c h -> cL c (tw h);
  c_nx : forall h, cL c h -> cL c (cnx c h);
  c_inj : forall a b, cL c a -> cL c b -> cnx c a = cnx c b -> a = b;
  c_ve : forall h, cL c h -> cV c (cve c h);
  c_fa : forall h, cL c h -> cF c (cfa c h);
  c_vnx : forall h, cL c h -> cve c (cnx c h) = cve c (tw h);
  c_fnx : forall h, cL c h -> cfa c (cnx c h) = cfa c h;
  c_vh : forall v, cV c v -> cL c (cvh c v) /\ cve c (cvh c v) = v;
  c_fh : forall f, cF c f -> cL c (cfh c f) /\ cfa c (cfh c f) = f;
  c_forb : forall a b, cL c a -> cL c b -> cfa c a = cfa c b -> reach (cnx c) a b;
  c_vorb : forall a b, cL c a -> cL c b -> cve c a = cve c b -> reach (fun h => cnx c (tw h)) a b;
  c_ebd : forall h, cL c h -> h mod 2 = 0 -> ~ cX c (cfa c h);
  c_vbd : forall h, cL c h -> cX c (cfa c (tw h)) -> cvh c (cve c h) = h }.

Definition ofMesh (m : mesh) : cmap := mkC (liveH m) (liveV m) (liveFL m) (fun f => fFill m <= f) (nx m) (ve m) (fa m) (vh m) (fh m).
Lemma ofMesh_conn m : Valid m -> CConn (heFill m) (ofMesh m).
Proof.
  intros V. pose proof (va_cn _ V) as C. split; cbn; try apply C.
  intros h [H _]. exact H.
Qed.
(** reading the result off the arrays *)
Lemma toMesh_conn N c m : CConn N c -> (forall h, liveH m h <-> cL c h) -> (forall v, liveV m v <-> cV c v) -> (forall f, liveFL m f <-> cF c f) ->
  (forall h, cL c h -> nx m h = cnx c h /\ ve m h = cve c h /\ fa m h = cfa c h /\ (ext m h <-> cX c (cfa c h))) ->
  (forall v, cV c v -> vh m v = cvh c v) -> (forall f, cF c f -> fh m f = cfh c f) -> Connected m.
Proof.
  intros C HL HV HF HE HVh HFh.
  assert (EN : forall h, cL c h -> nx m h = cnx c h) by (intros; apply HE; auto). assert (EV : forall h, cL c h -> ve m h = cve c h) by (intros; apply HE; auto).
  assert (EF : forall h, cL c h -> fa m h = cfa c h) by (intros; apply HE; auto).
  split.
  - intros h H. apply HL, C, HL; auto.
  - intros h H. apply HL in H. rewrite EN by auto. apply HL, C; auto.
  - intros a b A B E. apply HL in A, B. rewrite !EN in E by auto. apply (c_inj _ _ C); auto.
  - intros h H. apply HL in H. rewrite EV by auto. apply HV, C; auto.
  - intros h H. apply HL in H. rewrite EF by auto. apply HF, C; auto.
  - intros h H. apply HL in H. rewrite EN, !EV by (auto; apply C; auto). apply (c_vnx _ _ C); auto.
  - intros h H. apply HL in H. rewrite EN, !EF by (auto; apply C; auto). apply (c_fnx _ _ C); auto.
  - intros v H. apply HV in H. rewrite HVh by auto. destruct (c_vh _ _ C v H) as [A B]. split; [apply HL; auto|]. rewrite EV; auto.
  - intros f H. apply HF in H. rewrite HFh by auto. destruct (c_fh _ _ C f H) as [A B]. split; [apply HL; auto|]. rewrite EF; auto.
  - intros a b A B E. apply HL in A, B. rewrite !EF in E by auto.
    apply (reach_ext (cL c)) with (f := cnx c); auto; [apply (c_nx _ _ C)|apply (c_forb _ _ C); auto].
  - intros a b A B E. apply HL in A, B. rewrite !EV in E by auto.
    apply (reach_ext (cL c)) with (f := fun h => cnx c (tw h)); auto.
    + intros h H. apply C, C; auto.
    + intros h H. unfold ro. apply EN, C; auto.
    + apply C; auto.
  - intros h H M. apply HL in H. rewrite (proj2 (proj2 (proj2 (HE h H)))). apply C; auto.
  - intros h H X. apply HL in H. assert (T : cL c (tw h)) by (apply C; auto). apply (proj2 (proj2 (proj2 (HE _ T)))) in X. rewrite EV, HVh by (auto; apply C; auto). apply (c_vbd _ _ C); auto.
Qed.

Section Contract.
Context (N : Z) (c : cmap) (C : CConn N c) (a : Z) (La : cL c a).
Let b := tw a.
Let vA := cve c a.
Let vB := cve c b.
Context (NE : vA <> vB) (N1 : cnx c a <> b) (N2 : cnx c b <> a).
Context (vhn fhn : Z -> Z).
Definition skip (h : Z) : Z := if h =? a then cnx c a else if h =? b then cnx c b else h.
(** edge {a, tw a} contracted into the vertex at its tip *)
Definition contract : cmap := mkC (fun h => cL c h /\ h <> a /\ h <> b) (fun v => cV c v /\ v <> vA) (cF c) (cX c)
  (fun h => skip (cnx c h)) (fun h => if cve c h =? vA then vB else cve c h) (cfa c) vhn fhn.
Context (VH : forall v, cV contract v -> cL contract (vhn v) /\ cve contract (vhn v) = v).
Context (FH : forall f, cF c f -> cL contract (fhn f) /\ cfa c (fhn f) = f).
Context (VB : forall h, cL contract h -> cX c (cfa c (tw h)) -> vhn (cve contract h) = h).

Let Lb : cL c b. Proof. apply C; auto. Qed.
Let ab : a <> b. Proof. intros E. apply NE. unfold vA, vB. rewrite <- E. auto. Qed.
Let tb : tw b = a. Proof. apply tw_tw. Qed.
Let na : cnx c a <> a.
Proof. intros E. apply NE. unfold vA, vB, b. rewrite <- (c_vnx _ _ C a La), E. auto. Qed.
Let nb : cnx c b <> b.
Proof. intros E. apply NE. unfold vB, vA. rewrite <- tb at 1. rewrite <- (c_vnx _ _ C b Lb), E. auto. Qed.
Lemma skip_a : skip a = cnx c a. Proof. unfold skip. rewrite Z.eqb_refl. auto. Qed.
Lemma skip_b : skip b = cnx c b. Proof. unfold skip. rewrite Z.eqb_refl. destruct (Z.eqb_spec b a); congruence. Qed.
Lemma skip_o h : h <> a -> h <> b -> skip h = h.
Proof. intros. unfold skip. destruct (Z.eqb_spec h a), (Z.eqb_spec h b); congruence. Qed.
Let skip_L h : cL c h -> cL contract (skip h).
Proof.
  intros H. cbn. destruct (Z.eq_dec h a) as [->|Ha]; [rewrite skip_a; split; [apply C; auto|auto]|]. destruct (Z.eq_dec h b) as [->|Hb]; [rewrite skip_b; split; [apply C; auto|auto]|].
  rewrite skip_o by auto. auto.
Qed.
Let LT h : cL contract h -> cL contract (tw h).
Proof.
  cbn. intros (H & Ha & Hb). split; [apply C; auto|]. split; intros E; [apply Hb; unfold b; rewrite <- E, tw_tw; auto|apply Ha; apply tw_inj; auto].
Qed.
Let LN h : cL contract h -> cL contract (cnx contract h).
Proof. intros H. apply skip_L. apply C, H. Qed.
Let INJ x y : cL contract x -> cL contract y -> cnx contract x = cnx contract y -> x = y.
Proof.
  cbn. intros (Hx & Xa & Xb) (Hy & Ya & Yb) E. assert (Q : forall p q, cL c p -> cL c q -> cnx c p = cnx c q -> p = q) by apply C.
  unfold skip in E. destruct (Z.eqb_spec (cnx c x) a) as [A1|A1], (Z.eqb_spec (cnx c y) a) as [A2|A2]; try (apply Q; auto; congruence).
  - destruct (Z.eqb_spec (cnx c y) b) as [B2|B2].
    + apply Q in E; auto. congruence.
    + apply Q in E; auto. congruence.
  - destruct (Z.eqb_spec (cnx c x) b) as [B2|B2].
    + apply Q in E; auto. congruence.
    + apply Q in E; auto. congruence.
  - destruct (Z.eqb_spec (cnx c x) b) as [B1|B1], (Z.eqb_spec (cnx c y) b) as [B2|B2]; try (apply Q; auto; congruence).
    + apply Q in E; auto. congruence.
    + apply Q in E; auto. congruence.
Qed.
Let ro h := cnx c (tw h).
Let ro' h := cnx contract (tw h).
Let ro_L h : cL c h -> cL c (ro h). Proof. intros. apply C, C; auto. Qed.
Let ro_v h : cL c h -> cve c (ro h) = cve c h. Proof. intros. unfold ro. rewrite (c_vnx _ _ C) by (apply C; auto). rewrite tw_tw. auto. Qed.
Let run t : t = a \/ t = b -> forall n x, cL c x -> cve c x = cve c t -> Nat.iter n ro x = t -> x <> t -> conn (cL contract) ro' x (skip t).
Proof.
  intros Ht. assert (O : forall x, cve c x = cve c t -> x <> t -> x <> a /\ x <> b).
  { intros x E Nx. fold b in NE. unfold vA, vB in NE. destruct Ht as [->| ->]; split; intros ->; congruence. }
  induction n as [|n IH]; intros x Lx Ex It Nx; [contradiction|].
  replace (S n) with (n + 1)%nat in It by lia. rewrite iter_add in It. cbn in It. assert (LX : cL contract x) by (cbn; split; auto).
  assert (St : conn (cL contract) ro' x (skip (ro x))) by (apply (conn_step (cL contract) ro' x LX)).
  destruct (Z.eq_dec (ro x) t) as [E|E]; [rewrite <- E; auto|]. eapply conn_trans; [exact St|].
  assert (Er : cve c (ro x) = cve c t) by (rewrite ro_v; auto). destruct (O (ro x) Er E) as [O1 O2]. rewrite skip_o by auto. apply IH; auto.
Qed.
Lemma contract_conn : CConn N contract.
Proof.
  assert (ROI : forall x y, cL contract x -> cL contract y -> ro' x = ro' y -> x = y) by (intros x y Hx Hy E; apply tw_inj; apply INJ; auto).
  split; auto.
  - intros h (H & _). apply C in H. auto.
  - cbn. intros h (H & _). destruct (Z.eqb_spec (cve c h) vA); [split; [apply C; auto|auto]|]. split; [apply C; auto|auto].
  - cbn. intros h (H & _). apply C; auto.
  - cbn. intros h (H & Ha & Hb). assert (E : cve c (cnx c h) = cve c (tw h)) by (apply (c_vnx _ _ C); auto).
    destruct (Z.eq_dec (cnx c h) a) as [Q|Qa]; [|destruct (Z.eq_dec (cnx c h) b) as [Q|Qb]].
    + rewrite Q, skip_a, (c_vnx _ _ C a La), <- E, Q. fold b vB vA. rewrite Z.eqb_refl. destruct (Z.eqb_spec vB vA); auto.
    + rewrite Q, skip_b, (c_vnx _ _ C b Lb), <- E, Q, tb. fold vB vA. rewrite Z.eqb_refl. destruct (Z.eqb_spec vB vA); auto.
    + rewrite skip_o by auto. rewrite E. auto.
  - cbn. intros h (H & Ha & Hb). rewrite <- (c_fnx _ _ C h H).
    destruct (Z.eq_dec (cnx c h) a) as [Q|Qa]; [|destruct (Z.eq_dec (cnx c h) b) as [Q|Qb]].
    + rewrite Q, skip_a. apply (c_fnx _ _ C); auto.
    + rewrite Q, skip_b. apply (c_fnx _ _ C); auto.
    + rewrite skip_o by auto. auto.
  - apply orbit_transfer with (L := cL c) (L' := cL contract) (f := cnx c) (lab := cfa c) (phi := skip) (psi := fun h => h) (N := N); auto; try apply C.
    + intros h (H & _). apply C in H. auto.
    + intros h H. destruct (Z.eq_dec h a) as [->|Ha]; [rewrite skip_a, skip_o by auto; apply conn_refl|]. destruct (Z.eq_dec h b) as [->|Hb]; [rewrite skip_b, skip_o by auto; apply conn_refl|].
      rewrite (skip_o h) by auto. apply (conn_step (cL contract) (cnx contract) h). cbn. auto.
    + intros x y (Hx & X1 & X2) (Hy & Y1 & Y2) E. right. rewrite !skip_o by auto. repeat (split; auto using conn_refl).
  - intros x y Hx Hy E. fold ro'. change (fun h => cnx contract (tw h)) with ro'. apply conn_reach with (L := cL contract) (N := N); auto.
    + intros h H. apply LN, LT; auto.
    + intros h (H & _). apply C in H. auto.
    + assert (MA : forall z, cL contract z -> cve c z = vA -> conn (cL contract) ro' z (cnx c a)).
      { intros z (Hz & Z1 & _) Ez. destruct (c_vorb _ _ C z a Hz La) as (n & In); [exact Ez|]. rewrite <- skip_a. eapply run; eauto. }
      assert (MB : forall z, cL contract z -> cve c z = vB -> conn (cL contract) ro' z (cnx c b)).
      { intros z (Hz & _ & Z2) Ez. destruct (c_vorb _ _ C z b Hz Lb) as (n & In); [exact Ez|]. rewrite <- skip_b. eapply run; eauto. }
      assert (AB : conn (cL contract) ro' (cnx c b) (cnx c a)).
      { apply MA; [cbn; split; [apply C; auto|auto]|]. rewrite (c_vnx _ _ C b Lb), tb. auto. }
      assert (M : forall z, cL contract z -> cve contract z = vB -> conn (cL contract) ro' z (cnx c a)).
      { intros z Hz Ez. cbn in Ez. destruct (Z.eqb_spec (cve c z) vA); auto. eapply conn_trans; [apply MB; auto|exact AB]. }
      destruct (Z.eq_dec (cve contract x) vB) as [Q|Q]; [eapply conn_trans; [apply M; auto|apply conn_sym, M; congruence]|].
      assert (Ox : cve c x <> vA /\ cve c x <> vB). { cbn in Q. destruct (Z.eqb_spec (cve c x) vA); [congruence|auto]. }
      assert (Oy : cve c x = cve c y). { rewrite E in Q. cbn in E, Q. destruct (Z.eqb_spec (cve c y) vA); [congruence|]. destruct (Z.eqb_spec (cve c x) vA); [tauto|auto]. }
      apply reach_conn.
      * intros h H. apply LN, LT; auto.
      * auto.
      * assert (G : forall z, cL c z -> cve c z = cve c x -> ro' z = ro z).
        { intros z Hz Ez. unfold ro'. cbn. fold (ro z). apply skip_o; intros K; [apply (proj1 Ox)|apply (proj2 Ox)]; rewrite <- Ez, <- (ro_v z Hz); rewrite K; auto. }
        apply (reach_ext (fun z => cL c z /\ cve c z = cve c x)) with (f := ro); auto.
        -- intros z [Hz Ez]. split; [apply ro_L; auto|rewrite ro_v; auto].
        -- intros z [Hz Ez]. auto.
        -- destruct Hx; auto.
        -- destruct Hx as [Hx _], Hy as [Hy _]. apply (c_vorb _ _ C); auto.
  - cbn. intros h (H & _) M. apply (c_ebd _ _ C); auto.
Qed.
End Contract.

Section Digon.
Context (N : Z) (c : cmap) (C : CConn N c) (x : Z) (Lx : cL c x).
Let y := cnx c x.
Let z := tw y.
Context (NX : cnx c y = x) (XY : x <> y) (XZ : z <> x) (IX : ~ cX c (cfa c x)) (IZ : ~ cX c (cfa c z)).
Context (vhn fhn : Z -> Z).
Definition subst (h : Z) : Z := if h =? z then x else h.
(** the face with sides x and y = nx x closed: x takes the place of the twin of y *)
Definition undigon : cmap := mkC (fun h => cL c h /\ h <> y /\ h <> z) (cV c) (fun f => cF c f /\ f <> cfa c x) (cX c)
  (fun h => subst (cnx c (if h =? x then z else h))) (cve c) (fun h => cfa c (if h =? x then z else h)) vhn fhn.
Context (VH : forall v, cV c v -> cL undigon (vhn v) /\ cve c (vhn v) = v).
Context (FH : forall f, cF undigon f -> cL undigon (fhn f) /\ cfa undigon (fhn f) = f).
Context (VB : forall h, cL undigon h -> cX c (cfa c (tw h)) -> vhn (cve c h) = h).

Let Ly : cL c y. Proof. apply C; auto. Qed.
Let Lz : cL c z. Proof. apply C; auto. Qed.
Let yz : y <> z. Proof. intros E. apply (tw_neq y). auto. Qed.
Let tz : tw z = y. Proof. apply tw_tw. Qed.
Let fy : cfa c y = cfa c x. Proof. apply (c_fnx _ _ C); auto. Qed.
Let inD h : cL c h -> cfa c h = cfa c x -> h = x \/ h = y.
Proof.
  intros H E. symmetry in E. destruct (c_forb _ _ C x h Lx H E) as (n & <-). clear E H. induction n as [|n IH]; [left; reflexivity|].
  change (Nat.iter (S n) (cnx c) x) with (cnx c (Nat.iter n (cnx c) x)). destruct IH as [->| ->]; auto.
Qed.
Let fz : cfa c z <> cfa c x. Proof. intros E. destruct (inD z Lz E); auto. Qed.
Let vz : cve c z = cve c x. Proof. unfold z. rewrite <- (c_vnx _ _ C y Ly). rewrite NX. auto. Qed.
Definition src (h : Z) : Z := if h =? x then z else h.
Let src_x : src x = z. Proof. unfold src. rewrite Z.eqb_refl. auto. Qed.
Let src_o h : h <> x -> src h = h. Proof. intros. unfold src. destruct (Z.eqb_spec h x); congruence. Qed.
Let sub_z : subst z = x. Proof. unfold subst. rewrite Z.eqb_refl. auto. Qed.
Let sub_o h : h <> z -> subst h = h. Proof. intros. unfold subst. destruct (Z.eqb_spec h z); congruence. Qed.
Let off h := cL c h /\ cfa c h <> cfa c x.
Let off_neq h : off h -> h <> x /\ h <> y.
Proof. intros [H E]. split; intros ->; auto. Qed.
Let sub_L h : off h -> cL undigon (subst h).
Proof.
  intros O. destruct (off_neq h O) as [O1 O2]. cbn. destruct (Z.eq_dec h z) as [->|Q]; [rewrite sub_z|rewrite sub_o by auto]; split; auto. apply O.
Qed.
Let src_off h : cL undigon h -> off (src h).
Proof.
  cbn. intros (H & Hy & Hz). destruct (Z.eq_dec h x) as [->|Q]; [rewrite src_x; split; auto|]. rewrite src_o by auto. split; auto. intros E. destruct (inD h H E); auto.
Qed.
Let sub_src h : cL undigon h -> subst (src h) = h.
Proof. cbn. intros (H & Hy & Hz). destruct (Z.eq_dec h x) as [->|Q]; [rewrite src_x, sub_z|rewrite src_o, sub_o by auto]; auto. Qed.
Let src_sub h : off h -> src (subst h) = h.
Proof. intros O. destruct (off_neq h O). destruct (Z.eq_dec h z) as [->|Q]; [rewrite sub_z, src_x|rewrite sub_o, src_o by auto]; auto. Qed.
Let nx_off h : off h -> off (cnx c h).
Proof. intros [H E]. split; [apply C; auto|]. rewrite (c_fnx _ _ C) by auto. auto. Qed.
Let ve_src h : cve c (src h) = cve c h.
Proof. destruct (Z.eq_dec h x) as [->|Q]; [rewrite src_x|rewrite src_o by auto]; auto. Qed.
Let ve_sub h : cve c (subst h) = cve c h.
Proof. destruct (Z.eq_dec h z) as [->|Q]; [rewrite sub_z|rewrite sub_o by auto]; auto. Qed.
Let nxE h : cnx undigon h = subst (cnx c (src h)). Proof. reflexivity. Qed.
Let faE h : cfa undigon h = cfa c (src h). Proof. reflexivity. Qed.
Let LT h : cL undigon h -> cL undigon (tw h).
Proof.
  cbn. intros (H & Hy & Hz). split; [apply C; auto|]. split; intros E; [apply Hz; unfold z; rewrite <- E, tw_tw; auto|apply Hy; apply tw_inj; auto].
Qed.
Let LN h : cL undigon h -> cL undigon (cnx undigon h).
Proof. intros H. rewrite nxE. apply sub_L, nx_off, src_off; auto. Qed.
Let INJ p q : cL undigon p -> cL undigon q -> cnx undigon p = cnx undigon q -> p = q.
Proof.
  intros P Q E. rewrite !nxE in E. apply (f_equal src) in E. rewrite !src_sub in E by (apply nx_off, src_off; auto).
  apply (c_inj _ _ C) in E; [|apply src_off; auto|apply src_off; auto]. rewrite <- (sub_src p P), <- (sub_src q Q), E. auto.
Qed.
Let ro h := cnx c (tw h).
Let ro' h := cnx undigon (tw h).
Lemma undigon_conn : CConn N undigon.
Proof.
  split; auto.
  - intros h (H & _). apply C in H. auto.
  - cbn. intros h (H & _). apply C; auto.
  - intros h H. rewrite faE. destruct (src_off h H) as [S1 S2]. split; auto. apply C; auto.
  - intros h H. rewrite nxE. change (cve undigon) with (cve c). rewrite ve_sub. destruct (src_off h H) as [S1 S2]. rewrite (c_vnx _ _ C) by auto.
    destruct (Z.eq_dec h x) as [->|Q]; [|rewrite src_o by auto; auto]. rewrite src_x, tz. unfold y. apply (c_vnx _ _ C); auto.
  - intros h H. rewrite !faE, nxE. rewrite src_sub by (apply nx_off, src_off; auto). apply (c_fnx _ _ C). apply src_off; auto.
  - intros p q P Q E. rewrite !faE in E. destruct (src_off p P) as [P1 P2]. destruct (src_off q Q) as [Q1 Q2]. destruct (c_forb _ _ C (src p) (src q) P1 Q1 E) as (n & I). exists n.
    rewrite <- (sub_src q Q), <- I. clear I E. assert (K : Nat.iter n (cnx undigon) p = subst (Nat.iter n (cnx c) (src p)) /\ off (Nat.iter n (cnx c) (src p))); [|apply K].
    induction n as [|n [I1 I2]]; [split; [symmetry; apply sub_src; auto|split; auto]|].
    change (Nat.iter (S n) (cnx undigon) p) with (cnx undigon (Nat.iter n (cnx undigon) p)). change (Nat.iter (S n) (cnx c) (src p)) with (cnx c (Nat.iter n (cnx c) (src p))). rewrite I1, nxE, src_sub by auto. split; auto.
  - set (phi := fun h => if h =? z then x else if h =? y then subst (ro y) else h).
    assert (Py : phi y = subst (ro y)) by (unfold phi; rewrite Z.eqb_refl; destruct (Z.eqb_spec y z); congruence).
    assert (Pz : phi z = x) by (unfold phi; rewrite Z.eqb_refl; auto).
    assert (Po : forall h, h <> y -> h <> z -> phi h = h) by (intros h O1 O2; unfold phi; destruct (Z.eqb_spec h z), (Z.eqb_spec h y); congruence).
    assert (Ps : forall h, h <> y -> phi h = subst h) by (intros h O; unfold phi, subst; destruct (Z.eqb_spec h z), (Z.eqb_spec h y); congruence).
    change (fun h => cnx undigon (tw h)) with ro'.
    apply orbit_transfer with (L := cL c) (L' := cL undigon) (f := ro) (lab := cve c) (phi := phi) (psi := fun h => h) (N := N).
    + intros h H. apply C, C; auto.
    + apply C.
    + intros h H. apply LN, LT; auto.
    + intros h (H & _). apply C in H. auto.
    + intros p q P Q E. apply tw_inj. apply INJ; auto.
    + intros h H. destruct (Z.eq_dec h z) as [->|Hz].
      { unfold ro. rewrite Pz, tz, NX, Po by auto. apply conn_refl. }
      destruct (Z.eq_dec h y) as [->|Hy].
      { rewrite Py. rewrite Ps; [apply conn_refl|]. unfold ro. fold z. apply off_neq, nx_off. split; auto. }
      rewrite (Po h) by auto. assert (H' : cL undigon h) by (cbn; auto). assert (St : conn (cL undigon) ro' h (ro' h)) by (apply (conn_step (cL undigon) ro' h H')).
      replace (phi (ro h)) with (ro' h); auto. unfold ro', ro. rewrite nxE. destruct (Z.eq_dec (tw h) x) as [Q|Q].
      * rewrite Q, src_x. fold y. rewrite Py. auto.
      * rewrite src_o by auto. symmetry. apply Ps. intros K. apply Q. apply (c_inj _ _ C); auto. apply C; auto.
    + intros p q (P & P1 & P2) (Q & Q1 & Q2) E. right. rewrite !Po by auto. repeat (split; auto using conn_refl).
  - intros h H M. rewrite faE. destruct (Z.eq_dec h x) as [->|Q]; [rewrite src_x; auto|]. rewrite src_o by auto. destruct H as [H _]. apply (c_ebd _ _ C); auto.
  - intros h H X. rewrite faE in X. destruct (Z.eq_dec (tw h) x) as [Q|Q]; [rewrite Q, src_x in X; contradiction|]. rewrite src_o in X by auto. apply VB; auto.
Qed.
End Digon.
