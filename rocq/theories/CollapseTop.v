(** collapseEdgeTriangular: which case is taken, and what comes out. *)
From Verif Require Import Base MeshModel MeshModel2 MeshSpec MeshBase MeshExec MeshOrbit MeshFlip MeshDel MeshOpSpec MeshThms MeshConnect MeshSplit CollapseModel CollapseMap CollapseSpec CollapseProofs CollapseRun CollapseDone CollapseBnd.
Open Scope Z_scope.

Section Top.
Context (m : mesh) (V : Valid m).
Let CN := va_cn _ V.
Let RN h : liveH m h -> next m h = Ok (nx m h). Proof. apply next_live; auto. Qed.
Let RF h : liveH m h -> faceOf m h = Ok (fa m h). Proof. intros H. apply faceOf_ok. apply (liveH_bnd m V) in H. tauto. Qed.
Let RV h : liveH m h -> vertexOf m h = Ok (ve m h). Proof. intros H. apply vertexOf_ok. apply (liveH_bnd m V) in H. tauto. Qed.

(** at a vertex there is at most one halfedge on the boundary *)
Lemma ext_in_unique h k : liveH m h -> liveH m k -> ext m h -> ext m k -> ve m (tw h) = ve m (tw k) -> h = k.
Proof.
  intros Lh Lk Xh Xk E. apply tw_inj. pose proof (cn_vbd _ CN (tw h) (cn_tw _ CN h Lh)) as K1. pose proof (cn_vbd _ CN (tw k) (cn_tw _ CN k Lk)) as K2. rewrite tw_tw in K1, K2. rewrite <- K1, <- K2, E; auto.
Qed.
Lemma ext_out_unique h k : liveH m h -> liveH m k -> ext m h -> ext m k -> ve m h = ve m k -> h = k.
Proof.
  intros Lh Lk Xh Xk E. destruct (prev_ok m V h Lh) as (p & Lp & Np & Fp & _). destruct (prev_ok m V k Lk) as (q & Lq & Nq & Fq & _).
  assert (p = q). { apply ext_in_unique; auto; try (unfold ext; rewrite ?Fp, ?Fq; auto). rewrite <- !(cn_vnx _ CN) by auto. congruence. } congruence.
Qed.

(** the loops that look for a triangle of edges that is not a face *)
Lemma anyM_ok {A} (f : A -> res bool) (P : A -> Prop) : forall l, (forall x, In x l -> exists b, f x = Ok b /\ (b = true <-> P x)) ->
  exists b, anyM f l = Ok b /\ (b = true <-> exists x, In x l /\ P x).
Proof.
  induction l as [|x l IH]; intros H; cbn [anyM].
  - exists false. split; auto. split; [discriminate|intros (x & [] & _)].
  - destruct (H x (or_introl eq_refl)) as ([] & R & K); rewrite R; cbn [bind].
    + exists true. split; auto. split; auto. intros _. exists x. split; [left; auto|apply K; auto].
    + destruct IH as (b & R' & K'); [intros; apply H; right; auto|]. exists b. split; auto. rewrite K'. split.
      * intros (y & Hy & Py). exists y. split; auto. right; auto.
      * intros (y & [<-|Hy] & Py); [apply K in Py; discriminate|]. exists y. auto.
Qed.
Lemma pinched_ok a : liveH m a -> exists p, pinched m a = Ok p /\ (p = true <-> linkBad m a).
Proof.
  intros La. assert (Lb : liveH m (tw a)) by (apply CN; auto). unfold pinched. unfold tipVertex at 1. rewrite (RV _ Lb). cbn [bind].
  assert (LB : liveV m (ve m (tw a))) by (apply CN; auto). destruct (vertHalfedges_ok m V _ LB) as (l1 & R1 & _ & _ & _ & I1). rewrite R1. cbn [bind].
  edestruct (anyM_ok (fun he1 => let* w := tipVertex m he1 in let* l2 := vertHalfedges m w in anyM (pinch2 m a he1) l2)
    (fun k => exists h, liveH m h /\ ve m h = ve m a /\ ve m (tw h) = ve m (tw k) /\ ~ (nx m a = k /\ nx m k = tw h) /\ ~ (nx m h = tw k /\ nx m (tw k) = tw a)) l1) as (p & R & K).
  - intros k Hk. apply I1 in Hk as [Lk Ek]. assert (Lkt : liveH m (tw k)) by (apply CN; auto). unfold tipVertex. rewrite (RV _ Lkt). cbn [bind].
    assert (LW : liveV m (ve m (tw k))) by (apply CN; auto). destruct (vertHalfedges_ok m V _ LW) as (l2 & R2 & _ & _ & _ & I2). rewrite R2. cbn [bind].
    edestruct (anyM_ok (pinch2 m a k) (fun h2 => ve m (tw h2) = ve m a /\ ~ (nx m a = k /\ nx m k = h2) /\ ~ (nx m (tw h2) = tw k /\ nx m (tw k) = tw a)) l2) as (p & R & K).
    + intros h2 H2. apply I2 in H2 as [L2 E2]. assert (L2t : liveH m (tw h2)) by (apply CN; auto). unfold pinch2. rewrite (RN a La), (RN k Lk), (RN _ Lkt), (RN _ L2t). cbn [bind].
      assert (TE : forall x y, (tw x =? y) = (x =? tw y)). { intros x y. destruct (Z.eqb_spec (tw x) y) as [E|N], (Z.eqb_spec x (tw y)) as [E'|N']; auto; exfalso; [apply N'; rewrite <- E, tw_tw; auto|apply N; rewrite E', tw_tw; auto]. }
      rewrite !TE. destruct (negb ((nx m a =? k) && (nx m k =? h2)) && negb ((nx m (tw k) =? tw a) && (nx m (tw h2) =? tw k))) eqn:G.
      * unfold tipVertex. rewrite (RV _ L2t), (RV _ La). cbn [bind]. eexists. split; [reflexivity|]. apply andb_true_iff in G as [G1 G2]. clear -G1 G2. lia.
      * exists false. split; auto. split; [discriminate|]. intros (_ & Q1 & Q2). apply andb_false_iff in G. clear -G Q1 Q2. lia.
    + exists p. split; auto. rewrite K. split.
      * intros (h2 & H2 & P1 & P2 & P3). apply I2 in H2 as [L2 E2]. exists (tw h2). rewrite tw_tw. split; [apply CN; auto|]. auto.
      * intros (h & Lh & P1 & P2 & P3 & P4). exists (tw h). rewrite tw_tw. split; [apply I2; split; auto; apply CN; auto|]. auto.
  - exists p. split; auto. rewrite K. unfold linkBad. split.
    + intros (k & Hk & h & P). apply I1 in Hk as [Lk Ek]. exists h, k. tauto.
    + intros (h & k & P). exists k. split; [apply I1; tauto|]. exists h. tauto.
Qed.
Lemma degree_ok v : liveV m v -> exists l, vDegree m v = Ok (Z.of_nat (length l)) /\ NoDup l /\ (forall x, In x l <-> liveH m x /\ ve m x = v).
Proof. intros Lv. destruct (vertHalfedges_ok m V v Lv) as (l & R & _ & _ & ND & I). exists l. unfold vDegree. rewrite R. auto. Qed.

Context (TR : triangular m) (NS : noSelfEdges m).
Definition around (a : Z) : Prop := liveH m a /\ ~ ext m a /\ (ext m (tw a) -> ~ ext m (tw (nx m (nx m a)))) /\ (~ ext m (tw a) -> ~ thin m a /\ ~ ext m (tw (nx m (tw a)))).

(** ** an interior edge *)
Section Int.
Context (a : Z) (La : liveH m a) (Ia : ~ ext m a).
Context (IN : forall k, liveH m k -> ve m k = ve m a -> ~ ext m k /\ ~ ext m (tw k)).
Lemma orbit2 x : thin m a -> liveH m x -> ve m x = ve m a -> x = a \/ x = nx m (tw a).
Proof.
  intros TH Lx E. destruct (cn_vorb _ CN a x La Lx) as [n <-]; [auto|]. clear Lx E. induction n as [|n IH]; [left; reflexivity|]. change (Nat.iter (S n) (ro m) a) with (ro m (Nat.iter n (ro m) a)).
  destruct IH as [-> | ->]; [right; reflexivity|left]. rewrite TH. unfold ro. rewrite tw_tw. apply (tri_nx m TR a La Ia).
Qed.
Lemma int_case : exists d, vDegree m (ve m a) = Ok d /\ (d < 3 -> thin m a) /\ (3 <= d -> ~ thin m a) /\
  (d = 3 -> nx m (tw (nx m (tw a))) = tw (nx m (nx m a))) /\ (3 < d -> nx m (tw (nx m (tw a))) <> tw (nx m (nx m a))).
Proof.
  assert (LvA : liveV m (ve m a)) by (apply CN; auto). destruct (degree_ok _ LvA) as (l & R & ND & I). exists (Z.of_nat (length l)). split; auto.
  assert (Lb : liveH m (tw a)) by (apply CN; auto).
  assert (TH2 : thin m a -> Z.of_nat (length l) <= 2). { intros TH. assert (K : (length l <= length [a; nx m (tw a)])%nat) by (apply NoDup_incl_length; auto; intros x Hx; apply I in Hx as [Lx Ex]; destruct (orbit2 x TH Lx Ex) as [-> | ->]; cbn; auto). cbn in K. clear -K. lia. }
  destruct (Z.eq_dec (nx m (tw a)) (tw (nx m (nx m a)))) as [TH|NT].
  { pose proof (TH2 TH) as K. split; [auto|]. split; [clear -K; lia|]. split; intros; exfalso; clear -K H; lia. }
  destruct (int_bd m V TR NS a La Ia IN) as (Ib & IC & ID).
  destruct (a_facts m V TR NS a La Ia) as (_ & L1 & L2 & L3 & L4 & L5 & T & V1 & V2 & V3 & V4 & V5 & N1 & N2 & N3 & F1 & F2 & F3 & F4 & I1 & I2).
  destruct (b_facts m V TR NS a La Ia Ib ID NT) as (M1 & M2 & M3 & M4 & M5 & TB & W1 & W2 & W3 & W4 & X1 & X2 & E1 & E2 & E3 & E4 & I3 & TD & W5 & X3 & X4 & Y1 & Y2 & Y3 & Y4).
  destruct (C2_facts m V TR NS a La Ia) as (FC & Q1 & Q2 & Q3 & Q4).
  set (B1 := nx m (tw a)) in *. set (C2 := tw (nx m (nx m a))) in *. set (D2 := nx m (tw B1)) in *.
  assert (QB : B1 <> a) by (intros E; apply (f_equal (fa m)) in E; congruence).
  assert (P3 : 3 <= Z.of_nat (length l)). { assert (K : (length [a; B1; C2] <= length l)%nat). { apply NoDup_incl_length; [|intros x [<-|[<-|[<-|[]]]]; apply I; auto]. repeat constructor; cbn; intuition congruence. } cbn in K. clear -K. lia. }
  assert (P4 : D2 <> C2 -> 4 <= Z.of_nat (length l)).
  { intros NE. assert (DA : D2 <> a). { intros E. assert (K : tw B1 = nx m (nx m a)) by (apply (cn_inj _ CN); auto; congruence). apply NT. unfold C2. rewrite <- K, tw_tw. auto. }
    assert (DB : D2 <> B1). { intros E. assert (K : tw B1 = tw a) by (apply (cn_inj _ CN); auto). apply tw_inj in K. auto. }
    assert (K : (length [a; B1; C2; D2] <= length l)%nat). { apply NoDup_incl_length; [|intros x [<-|[<-|[<-|[<-|[]]]]]; apply I; auto]. repeat constructor; cbn; intuition congruence. } cbn in K. clear -K. lia. }
  split; [intros K; exfalso; clear -K P3; lia|]. split; [auto|]. split.
  - intros K. destruct (Z.eq_dec D2 C2) as [|N]; auto. pose proof (P4 N) as K2. exfalso. clear -K K2. lia.
  - intros K E. destruct (three_facts m V TR NS a La Ia IN NT E) as (_ & _ & _ & ORB).
    assert (K2 : (length l <= length [a; B1; C2])%nat). { apply NoDup_incl_length; auto. intros x Hx. apply I in Hx as [Lx Ex]. destruct (ORB x Lx Ex) as [-> |[-> | ->]]; cbn; auto. } cbn in K2. clear -K K2. lia.
Qed.
End Int.

Lemma int_collapse a : liveH m a -> ~ ext m a -> (forall k, liveH m k -> ve m k = ve m a -> ~ ext m k /\ ~ ext m (tw k)) ->
  match (let* v := vertexOf m a in let* d := vDegree m v in if 3 <? d then collapseInterior m (edge a) a else if d =? 3 then collapseDegree3 m (edge a) a else Throw) with
  | Ok (m', Some v) => v = ve m (tw a) /\ around a /\ Valid m' /\ Collapsed m m' a
  | Throw => thin m a
  | _ => False
  end.
Proof.
  intros La Ia IN. destruct (int_bd m V TR NS a La Ia IN) as (Ib & IC & ID). assert (AR : ~ thin m a -> around a) by (intros; unfold around; auto 8). rewrite (RV a La). cbn [bind]. destruct (int_case a La Ia IN) as (d & R & K1 & K2 & K3 & K4). rewrite R. cbn [bind].
  destruct (Z.ltb_spec 3 d) as [D|D].
  - destruct (run_interior m V TR NS a La Ia IN) as (m' & R' & V' & C'); [apply K2; clear -D; lia|apply K4; auto|]. rewrite R'. split; auto. split; auto. apply AR, K2. clear -D; lia.
  - destruct (Z.eqb_spec d 3) as [D'|D'].
    + destruct (run_degree3 m V TR NS a La Ia IN) as (m' & R' & V' & C'); [apply K2; clear -D'; lia|apply K3; auto|]. rewrite R'. split; auto. split; auto. apply AR, K2. clear -D'; lia.
    + apply K1. clear -D D'. lia.
Qed.

(** ** an edge of the boundary *)
Lemma bnd_case a : liveH m a -> ~ ext m a -> ext m (tw a) -> exists d, vDegree m (ve m a) = Ok d /\ (d = 2 <-> ext m (tw (nx m (nx m a)))) /\ (d = 2 <-> thin m a).
Proof.
  intros La Ia Xb. assert (LvA : liveV m (ve m a)) by (apply CN; auto). destruct (degree_ok _ LvA) as (l & R & ND & I). exists (Z.of_nat (length l)). split; auto.
  destruct (a_facts m V TR NS a La Ia) as (Lb & L1 & L2 & L3 & L4 & L5 & T & V1 & V2 & V3 & V4 & V5 & N1 & N2 & N3 & F1 & F2 & F3 & F4 & I1 & I2). destruct (C2_facts m V TR NS a La Ia) as (FC & Q1 & Q2 & Q3 & Q4).
  assert (M1 : liveH m (nx m (tw a))) by (apply CN; auto). assert (X1 : ext m (nx m (tw a))) by (apply (ext_nx m V); auto).
  assert (W1 : ve m (nx m (tw a)) = ve m a) by (rewrite (cn_vnx _ CN _ Lb); auto). assert (QB : nx m (tw a) <> a) by (intros E; apply Ia; rewrite <- E; auto).
  assert (E1 : ext m (tw (nx m (nx m a))) <-> thin m a). { unfold thin. split; [intros X; apply ext_out_unique; auto; congruence|intros <-; auto]. }
  assert (E2 : Z.of_nat (length l) = 2 <-> thin m a).
  { unfold thin. split; intros H.
    - destruct (Z.eq_dec (nx m (tw a)) (tw (nx m (nx m a)))) as [|N]; auto. exfalso.
      assert (K : (length [a; nx m (tw a); tw (nx m (nx m a))] <= length l)%nat). { apply NoDup_incl_length; [|intros x [<-|[<-|[<-|[]]]]; apply I; auto]. repeat constructor; cbn; intuition congruence. } cbn in K. clear -K H. lia.
    - assert (K : (length [a; nx m (tw a)] <= length l)%nat). { apply NoDup_incl_length; [|intros x [<-|[<-|[]]]; apply I; auto]. repeat constructor; cbn; intuition congruence. }
      assert (K2 : (length l <= length [a; nx m (tw a)])%nat) by (apply NoDup_incl_length; auto; intros x Hx; apply I in Hx as [Lx Ex]; destruct (orbit2 a La Ia x H Lx Ex) as [-> | ->]; cbn; auto). cbn in K, K2. clear -K K2. lia. }
  rewrite E1. auto.
Qed.
Lemma bnd_split e : collapseBoundary m e =
  let* v := vertexOf m (eHe e) in let* d := vDegree m v in
  let* a := (if d =? 2 then let* a := next m (eHe e) in next m a else Ok (eHe e)) in
  let* t1 := next m (tw a) in let* t2 := next m t1 in let* t3 := next m t2 in
  if t3 =? tw a then Ok (m, None) else let* p := pinched m a in if (p : bool) then Ok (m, None) else bndTail m a.
Proof. reflexivity. Qed.
Lemma bnd_collapse e : liveH m (eHe e) -> ext m (tw (eHe e)) ->
  match collapseBoundary m e with
  | Ok (m', None) => m' = m /\ exists a, target m e a /\ (linkBad m a \/ boundaryTriangle m a)
  | Ok (m', Some v) => exists a, target m e a /\ v = ve m (tw a) /\ ~ linkBad m a /\ ~ boundaryTriangle m a /\ around a /\ Valid m' /\ Collapsed m m' a
  | _ => False
  end.
Proof.
  intros Le Xe. assert (Ie : ~ ext m (eHe e)) by (apply (cn_ebd _ CN); auto; unfold eHe; clear; lia).
  rewrite bnd_split. rewrite (RV _ Le). cbn [bind]. destruct (bnd_case _ Le Ie Xe) as (d & R & D1 & D2). rewrite R. cbn [bind].
  assert (L1 : liveH m (nx m (eHe e))) by (apply CN; auto). assert (L2 : liveH m (nx m (nx m (eHe e)))) by (apply CN; auto).
  assert (TA : exists a, (if d =? 2 then let* x := next m (eHe e) in next m x else Ok (eHe e)) = Ok a /\ target m e a /\ liveH m a /\ ~ ext m a /\ ext m (tw a) /\ (ext m (tw (nx m (nx m a))) -> boundaryTriangle m a)).
  { destruct (Z.eqb_spec d 2) as [D|D].
    - exists (nx m (nx m (eHe e))). rewrite (RN _ Le). cbn [bind]. rewrite (RN _ L1). split; auto. assert (TH : thin m (eHe e)) by (apply D2; auto). assert (XC : ext m (tw (nx m (nx m (eHe e))))) by (apply D1; auto).
      split; [right; right; auto|]. split; auto. split; [rewrite !(ext_nx m V) by auto; auto|]. split; auto.
      intros X. pose proof (tri_nx m TR _ Le Ie) as T. rewrite T in X. unfold boundaryTriangle. split; auto.
      set (a0 := eHe e) in *. set (A1 := nx m a0) in *. set (A2 := nx m A1) in *.
      assert (Lb : liveH m (tw a0)) by (apply CN; auto). assert (L3 : liveH m (tw A2)) by (apply CN; auto). assert (L4 : liveH m (tw A1)) by (apply CN; auto).
      assert (S1 : nx m (tw A2) = tw A1). { apply ext_out_unique; auto; [apply CN; auto|apply (ext_nx m V); auto|]. rewrite (cn_vnx _ CN _ L3), tw_tw. apply (cn_vnx _ CN); auto. }
      assert (S2 : nx m (tw A1) = tw a0). { apply ext_out_unique; auto; [apply CN; auto|apply (ext_nx m V); auto|]. rewrite (cn_vnx _ CN _ L4), tw_tw. apply (cn_vnx _ CN); auto. }
      rewrite S1, S2. exact TH.
    - exists (eHe e). split; auto. split; [right; left; split; auto; split; auto; rewrite <- D2; auto|]. split; auto. split; auto. split; auto. intros X. apply D1 in X. contradiction. }
  destruct TA as (a & -> & TG & La & Ia & Xb & TC). cbn [bind].
  assert (Lb : liveH m (tw a)) by (apply CN; auto). assert (M1 : liveH m (nx m (tw a))) by (apply CN; auto). assert (M2 : liveH m (nx m (nx m (tw a)))) by (apply CN; auto).
  rewrite (RN _ Lb). cbn [bind]. rewrite (RN _ M1). cbn [bind]. rewrite (RN _ M2). cbn [bind].
  destruct (Z.eqb_spec (nx m (nx m (nx m (tw a)))) (tw a)) as [T3|T3].
  { split; auto. exists a. split; auto. right. split; auto. }
  destruct (pinched_ok a La) as (p & RP & KP). rewrite RP. cbn [bind]. destruct p.
  { split; auto. exists a. split; auto. left. apply KP. auto. }
  assert (NT : ~ boundaryTriangle m a) by (intros [_ K]; contradiction).
  destruct (run_boundary m V TR NS a La Ia Xb) as (m' & RT & V' & C'); [intros X; apply NT, TC, X|].
  rewrite RT. exists a. split; auto. split; auto. split; [rewrite <- KP; discriminate|]. split; auto. split; auto. unfold around. split; auto. split; auto.
Qed.

Theorem collapse_outcome e : liveH m (eHe e) ->
  match collapseEdgeTriangular m e with
  | Ok (m', None) => m' = m /\ ((~ ext m (tw (eHe e)) /\ onBoundary m (ve m (eHe e)) /\ onBoundary m (ve m (tw (eHe e)))) \/ exists a, target m e a /\ (linkBad m a \/ boundaryTriangle m a))
  | Ok (m', Some v) => exists a, target m e a /\ v = ve m (tw a) /\ ~ linkBad m a /\ ~ boundaryTriangle m a /\ around a /\ Valid m' /\ Collapsed m m' a
  | Throw => exists a, target m e a /\ ~ ext m (tw a) /\ thin m a
  | UB => False
  end.
Proof.
  intros Le. assert (Ie : ~ ext m (eHe e)) by (apply (cn_ebd _ CN); auto; unfold eHe; clear; lia).
  assert (Lt : liveH m (tw (eHe e))) by (apply CN; auto).
  unfold collapseEdgeTriangular. cbv zeta. rewrite (RF _ Le). cbn [bind]. rewrite isTriangle_ok by auto. rewrite (tri_nx m TR _ Le Ie), Z.eqb_refl. cbn [bind guard].
  rewrite eIsBoundary_ok by auto. cbn [bind]. destruct (Z.leb_spec (fFill m) (fa m (tw (eHe e)))) as [X|X].
  { cbn [bind]. pose proof (bnd_collapse e Le X) as K. destruct (collapseBoundary m e) as [[m' [v|]]| |]; try contradiction; auto. destruct K; auto. }
  assert (It : ~ ext m (tw (eHe e))) by (unfold ext; clear -X; lia).
  rewrite (RF _ Lt). cbn [bind]. rewrite isTriangle_ok by auto. rewrite (tri_nx m TR _ Lt It), Z.eqb_refl. cbn [bind guard].
  rewrite (RV _ Le), (RV _ Lt). cbn [bind].
  assert (LvA : liveV m (ve m (eHe e))) by (apply CN; auto). assert (LvB : liveV m (ve m (tw (eHe e)))) by (apply CN; auto).
  destruct (vertex_boundary m _ V LvA) as (bv & RA & KA1 & KA2). destruct (vertex_boundary m _ V LvB) as (bw & RB & KB1 & KB2). rewrite RA. cbn [bind].
  assert (EB : (if bv then vIsBoundary m (ve m (tw (eHe e))) else Ok false) = Ok (bv && bw)) by (rewrite RB; destruct bv; reflexivity). rewrite EB. cbn [bind]. clear EB.
  destruct (bv && bw) eqn:BB.
  { apply andb_true_iff in BB as [-> ->]. split; auto. left. split; auto. split; [apply KA1|apply KB1]; auto. }
  set (a := if bv then tw (eHe e) else eHe e).
  assert (FA : liveH m a /\ ~ ext m a /\ edge a = e /\ target m e a /\ ~ ext m (tw a) /\ (forall k, liveH m k -> ve m k = ve m a -> ~ ext m k /\ ~ ext m (tw k))).
  { assert (EE : edge (eHe e) = e) by apply edge_eHe. unfold a. destruct bv.
    - cbn in BB. subst bw. rewrite tw_tw. split; auto. split; auto. split; [rewrite tw_edge; auto|].
      split; [left; split; auto; right; split; [apply KA1; auto|reflexivity]|]. split; auto.
      intros k Lk Ek. assert (Lkt : liveH m (tw k)) by (apply CN; auto). split; intros Xk; [assert (false = true) by (apply KB1; eauto)|assert (false = true) by (apply KB2; exists (tw k); rewrite tw_tw; auto)]; discriminate.
    - split; auto. split; auto. split; auto. split; [left; split; auto; left; split; auto; intros K; apply KA1 in K; discriminate|]. split; auto.
      intros k Lk Ek. assert (Lkt : liveH m (tw k)) by (apply CN; auto). split; intros Xk; [assert (false = true) by (apply KA1; eauto)|assert (false = true) by (apply KA2; exists (tw k); rewrite tw_tw; auto)]; discriminate. }
  destruct FA as (La & Ia & Ea & TG & Ib & IN). clearbody a.
  destruct (pinched_ok a La) as (p & RP & KP). rewrite RP. cbn [bind]. destruct p.
  { split; auto. right. exists a. split; auto. left. apply KP. auto. }
  pose proof (int_collapse a La Ia IN) as K. rewrite Ea in K.
  destruct (let* v := vertexOf m a in let* d := vDegree m v in if 3 <? d then collapseInterior m e a else if d =? 3 then collapseDegree3 m e a else Throw) as [[m' [v|]]| |]; try contradiction.
  - exists a. destruct K as (K1 & K2 & K3 & K4). split; auto. split; auto. split; [rewrite <- KP; discriminate|]. split; [intros [K _]; contradiction|auto].
  - exists a. auto.
Qed.
End Top.
