From Coq Require Import Reals Lra Permutation.
From Verif Require Import Base DataModel DataSpec DataProofs MeshModel MeshSpec MeshBase MeshExec MeshOrbit MeshOpSpec MeshFlip MeshThms MeshSplit MeshHistorySpec MeshHistory MeshDataModel CollapseProofs CountSpec
  MatrixModel MatrixSpec MatrixProofs GeoModel IntrinsicModel IntrinsicSpec Intrinsic1 Intrinsic2 Intrinsic3 Intrinsic4 Intrinsic5 Intrinsic7.
Open Scope R_scope.
Lemma fill_all {T} (d0 : T) m k (body : mdata T -> Z -> res (mdata T)) (val : Z -> T) k' x0 : Valid m -> (forall e, liveE m k e -> (0 <= e < Z.of_nat (Z.to_nat (capacity m k')))%Z) ->
  (forall d e, length (dat d) = Z.to_nat (capacity m k') -> liveE m k e -> body d e = setAt d e (val e)) ->
  exists d, (let* es := elements m k in forEach es (newData m k' x0) body) = Ok d /\ length (dat d) = Z.to_nat (capacity m k') /\ (forall e, liveE m k e -> at_ d0 d e = val e) /\ (forall e, (0 <= e < capacity m k')%Z -> ~ liveE m k e -> at_ d0 d e = x0).
Proof.
  intros V B H. destruct (els_ok m k V) as (E & N & _ & I). destruct (newData_R m k' x0 d0) as [NL NV]. rewrite E. cbn [bind]. rewrite forEach_map. fold (zl m k).
  destruct (fill_if_ok d0 body (fun _ => true) val (Z.to_nat (capacity m k')) (zl m k) (newData m k' x0)) as (d & F & Ld & Vd); auto using zl_NoDup.
  - intros e He. apply zl_In in He; auto.
  - intros d e Q He. apply zl_In in He; auto.
  - exists d. split; [exact F|]. split; auto. split.
    + intros e K. rewrite Vd by (apply liveE_nonneg in K; auto). pose proof (existsb_at (fun _ => true) (zl m k) e) as X. rewrite zl_In in X by auto. destruct (existsb _ _); auto. destruct X as [_ X]. discriminate X. auto.
    + intros e Ke K. rewrite Vd by lia. pose proof (existsb_at (fun _ => true) (zl m k) e) as X. rewrite zl_In in X by auto. destruct (existsb _ _); [|auto]. exfalso. apply K. tauto.
Qed.
Section M.
Context (m : mesh) (V : Valid m) (TR : triangular m) (len : mdata R) (MT : Metric m len).
Let CN := va_cn m V.
Local Notation intH := (intH m).
Local Notation L := (lh len).
Local Notation areaH := (areaH m len).
Definition wH (h : Z) : R := cotWeight (L h) (L (nx m h)) (L (nx m (nx m h))) (areaH h).
Definition wS (h : Z) : R := if extb m h then 0 else wH h.
Definition goodAreas (areas : mdata R) : Prop := length (dat areas) = Z.to_nat (fCap m - bFill m) /\ forall h, intH h -> valAt areas (fa m h) = areaH h.
Lemma faceOf_int h : intH h -> faceOf m h = Ok (fa m h).
Proof. intros [A _]. rewrite faceOf_ok by (destruct (liveH_bnd m V h A) as (_ & _ & _ & ?); auto). reflexivity. Qed.
Lemma halfedgeWeight_ok areas h : goodAreas areas -> intH h -> halfedgeWeight m len areas h = Ok (wH h).
Proof.
  intros [LA HA] K. unfold halfedgeWeight. rewrite (triLengths_ok m V TR len MT) by auto. cbn [bind]. rewrite faceOf_int by auto. cbn [bind]. rewrite (dataAt_in 0) by (rewrite LA; apply (f_cap m V), fa_liveF; auto). cbn [bind].
  fold (valAt areas (fa m h)). rewrite HA by auto. reflexivity.
Qed.
Lemma not_ext h : extb m h = false -> ~ ext m h. Proof. intros E K. apply (extb_spec m) in K. congruence. Qed.
Lemma halfedgeCotanWeight_ok h : liveH m h -> halfedgeCotanWeight m len h = Ok (wS h).
Proof.
  intros K. unfold halfedgeCotanWeight, wS. rewrite isInterior_ok by auto. cbn [bind]. unfold extb. destruct (fFill m <=? fa m h)%Z eqn:E; cbn [negb]; auto.
  assert (KI : intH h) by (split; auto; apply not_ext; auto). rewrite (triLengths_ok m V TR len MT) by auto. cbn [bind]. rewrite faceOf_int by auto. cbn [bind]. rewrite (faceArea_ok m V TR len MT) by (apply fa_liveF; auto). cbn [bind]. rewrite (areaH_face m V TR) by auto. reflexivity.
Qed.
Lemma halfedgeWeights_ok areas : goodAreas areas -> exists d, halfedgeCotanWeights m len areas = Ok d /\ length (dat d) = Z.to_nat (heCap m) /\ forall h, liveH m h -> valAt d h = wS h.
Proof.
  intros GA. unfold halfedgeCotanWeights. destruct (fill_all 0 m ECorner (fun d h => let* w := halfedgeWeight m len areas h in setAt d h w) wH EHalfedge 0 V) as (d & E & LD & V1 & V2).
  - intros e K. apply (he_cap m V). apply K.
  - intros d e _ K. rewrite halfedgeWeight_ok by auto. reflexivity.
  - exists d. split; auto. split; auto. intros h K. unfold wS. destruct (extb m h) eqn:X.
    + apply V2; [pose proof (he_cap m V h K); cbn [capacity]; lia|]. intros Q. destruct Q as [_ Q]. apply Q. apply (extb_spec m). auto.
    + apply V1. split; auto. apply not_ext. auto.
Qed.
Lemma sides_live e : liveE m EEdge e -> liveH m (eHe e) /\ liveH m (tw (eHe e)).
Proof. intros K. split; [exact K|]. apply (cn_tw _ CN). exact K. Qed.
Lemma sides_sum (f : Z -> res R) e : liveE m EEdge e -> (forall h, intH h -> f h = Ok (wH h)) ->
  (let* hs := interiorOf m (sides e) in foldM (fun s h => let* w := f h in Ok (s + w)) hs 0) = Ok (wS (eHe e) + wS (tw (eHe e))).
Proof.
  intros K H. destruct (sides_live e K) as [K1 K2]. rewrite interior_filter by (auto; intros h [<-|[<-|[]]]; auto). cbn [bind]. rewrite (foldM_sum f wH Rplus).
  - rewrite fold_plus, Rsum_map. f_equal. rewrite <- Rsum_if. unfold sides. rewrite !Rsum_cons, Rsum_nil. unfold wS. destruct (extb m (eHe e)), (extb m (tw (eHe e))); cbn [negb]; ring.
  - intros h Hh. apply filter_In in Hh as [Hh X]. apply H. split; [destruct Hh as [<-|[<-|[]]]; auto|]. apply not_ext. destruct (extb m h); auto; discriminate.
Qed.
Lemma edgeCotanWeight_ok e : liveE m EEdge e -> edgeCotanWeight m len e = Ok (wS (eHe e) + wS (tw (eHe e))).
Proof.
  intros K. unfold edgeCotanWeight. apply sides_sum; auto. intros h Kh. rewrite halfedgeCotanWeight_ok by apply Kh. unfold wS. destruct (extb m h) eqn:X; auto. exfalso. apply Kh. apply (extb_spec m). auto.
Qed.
Lemma edgeWeights_ok areas : goodAreas areas -> exists d, edgeCotanWeights m len areas = Ok d /\ length (dat d) = Z.to_nat (eCap m) /\ forall e, liveE m EEdge e -> valAt d e = wS (eHe e) + wS (tw (eHe e)).
Proof.
  intros GA. unfold edgeCotanWeights.
  match goal with |- context [forEach _ _ ?b] => destruct (fill_all 0 m EEdge b (fun e => wS (eHe e) + wS (tw (eHe e))) EEdge 0 V) as (d & E & LD & V1 & V2) end.
  - intros e K. apply (live_cap m V EEdge); auto. right. left. auto.
  - intros d e _ K. pose proof (sides_sum (halfedgeWeight m len areas) e K (fun h => halfedgeWeight_ok areas h GA)) as S. destruct (interiorOf m (sides e)); cbn [bind] in *; try discriminate. rewrite S. reflexivity.
  - exists d. auto.
Qed.
(** every edge weight is half the sum of the cotangents of the opposite angles *)
Lemma wH_cot h : intH h -> forall c, cotOpposite m len h c -> wH h = c / 2.
Proof.
  intros K c (t & At & ->). pose proof (intH_nx m V h K) as K1. pose proof (intH_nx m V _ K1) as K2. unfold wH, areaH. rewrite (cot_ok _ _ _ (tri_at m V TR len MT h K)). destruct (three m V TR h K) as (E3 & _).
  assert (T : t = angleOf (L (nx m h)) (L h) (L (nx m (nx m h)))).
  { pose proof (angH_is m V TR len MT _ K2) as Q. unfold angleAt in Q, At. rewrite E3 in Q, At. unfold angH in Q. rewrite E3 in Q.
    refine (isAngle_unique _ _ _ _ _ _ _ At _); [apply MT; apply K2|apply MT; apply K1|]. pose proof (angle_ok (L (nx m (nx m h))) (L h) (L (nx m h))) as W.
    replace (angleOf (L (nx m h)) (L h) (L (nx m (nx m h)))) with (angleOf (L (nx m (nx m h))) (L h) (L (nx m h))); [exact Q|]. unfold angleOf. set (a := L (nx m (nx m h))). set (b := L (nx m h)). set (c := L h).
    replace (a * a + b * b - c * c) with (b * b + a * a - c * c) by ring. replace (2 * a * b) with (2 * b * a) by ring. reflexivity. }
  rewrite T. reflexivity.
Qed.
Lemma cot_exists h : intH h -> exists c, cotOpposite m len h c.
Proof. intros K. pose proof (intH_nx m V h K) as K1. pose proof (intH_nx m V _ K1) as K2. eexists. exists (angH m len (nx m (nx m h))). split; [apply (angH_is m V TR len MT); auto|reflexivity]. Qed.

(** ** the Laplacian *)
Definition ta (e : Z) : Z := ve m (eHe e).
Definition hd (e : Z) : Z := ve m (tw (eHe e)).
Definition lapPart (w : mdata R) (e : Z) : list (ztrip R) := [(ta e, ta e, valAt w e); (hd e, hd e, valAt w e); (ta e, hd e, - valAt w e); (hd e, ta e, - valAt w e)].
Lemma ev_live e : liveE m EEdge e -> liveE m EVertex (ta e) /\ liveE m EVertex (hd e).
Proof. intros K. destruct (zl_tail m V e K) as (_ & _ & _ & A & B). auto. Qed.
Lemma e_cap e : liveE m EEdge e -> (0 <= e < Z.of_nat (Z.to_nat (eCap m)))%Z.
Proof. intros K. apply (live_cap m V EEdge); auto. right; left; auto. Qed.
Lemma map_flat {A B C} (f : B -> C) (g : A -> list B) l : map f (flat_map g l) = flat_map (fun a => map f (g a)) l.
Proof. induction l as [|a t IH]; cbn; auto. rewrite map_app, IH. reflexivity. Qed.
Lemma lap_ok w : length (dat w) = Z.to_nat (eCap m) -> exists M, cotanLaplacian m w = Ok M /\ rows M = Z.to_nat (nVertices m) /\ cols M = Z.to_nat (nVertices m) /\
  (forall t, In t (flat_map (lapPart w) (zl m EEdge)) -> liveE m EVertex (fst (fst t)) /\ liveE m EVertex (snd (fst t))) /\
  (forall a b, liveV m a -> liveV m b -> entryAt 0 m EVertex EVertex M a b = Rsum (fun t => if ((fst (fst t) =? a) && (snd (fst t) =? b))%Z then snd t else 0) (flat_map (lapPart w) (zl m EEdge))).
Proof.
  intros LW. destruct (indices_ok m V EVertex) as (vi & EI & _ & HI); [left; auto|]. destruct (els_ok m EEdge V) as (E & N & _ & I). unfold cotanLaplacian. rewrite EI. cbn [bind]. rewrite E. cbn [bind]. rewrite forEach_map. fold (zl m EEdge).
  rewrite (foldM_gather _ (fun e => map (toTrip m EVertex EVertex) (lapPart w e))).
  2: { intros acc e He. apply zl_In in He; auto. destruct (zl_tail m V e He) as (K & T1 & T2 & A & B). rewrite T1, T2. cbn [bind]. rewrite (proj1 (HI _ B)). cbn [bind]. rewrite (proj1 (HI _ A)). cbn [bind].
       rewrite (dataAt_in 0) by (rewrite LW; apply e_cap; auto). cbn [bind]. reflexivity. }
  cbn [bind app]. rewrite <- map_flat. assert (LT : forall t, In t (flat_map (lapPart w) (zl m EEdge)) -> liveE m EVertex (fst (fst t)) /\ liveE m EVertex (snd (fst t))).
  { intros t It. apply in_flat_map in It as (e & He & It). apply zl_In in He; auto. destruct (ev_live e He). destruct It as [<-|[<-|[<-|[<-|[]]]]]; cbn [fst snd]; auto. }
  destruct (zsparse m V Rplus 0 (fun x => x) (fun _ _ => eq_refl) eq_refl EVertex EVertex (flat_map (lapPart w) (zl m EEdge)) LT) as (M & EM & R & C & S). exists M. split; [exact EM|]. split; auto.
Qed.
Section Lap.
Context (w : mdata R) (M : smat R).
Hypothesis (LT : forall t, In t (flat_map (lapPart w) (zl m EEdge)) -> liveE m EVertex (fst (fst t)) /\ liveE m EVertex (snd (fst t))).
Hypothesis (S : forall a b, liveV m a -> liveV m b -> entryAt 0 m EVertex EVertex M a b = Rsum (fun t => if ((fst (fst t) =? a) && (snd (fst t) =? b))%Z then snd t else 0) (flat_map (lapPart w) (zl m EEdge))).
Lemma lap_sym a b : liveV m a -> liveV m b -> entryAt 0 m EVertex EVertex M a b = entryAt 0 m EVertex EVertex M b a.
Proof.
  intros A B. rewrite !S by auto. rewrite !Rsum_flat_map. apply Rsum_ext. intros e He. unfold lapPart. rewrite !Rsum_cons, !Rsum_nil. cbn [fst snd].
  rewrite (andb_comm (ta e =? b)%Z (ta e =? a)%Z), (andb_comm (hd e =? b)%Z (hd e =? a)%Z), (andb_comm (ta e =? b)%Z (hd e =? a)%Z), (andb_comm (hd e =? b)%Z (ta e =? a)%Z). ring.
Qed.
Lemma lap_action (x : Z -> R) v : liveV m v -> Rsum (fun u => entryAt 0 m EVertex EVertex M v u * x u) (zl m EVertex) = Rsum (fun h => valAt w (edge h) * (x v - x (ve m (tw h)))) (filter (fun h => (ve m h =? v)%Z) (zl m EHalfedge)).
Proof.
  intros Lv. rewrite (zaction m V EVertex EVertex _ (entryAt 0 m EVertex EVertex M) x v LT S Lv). rewrite Rsum_flat_map. rewrite <- Rsum_if, (sum_edges m V). apply Rsum_ext. intros e He. apply zl_In in He; auto.
  unfold lapPart. rewrite !Rsum_cons, !Rsum_nil. cbn [fst snd]. rewrite !tw_edge, !edge_eHe, !tw_tw. fold (ta e) (hd e).
  destruct (Z.eqb_spec (ta e) v) as [E1|E1], (Z.eqb_spec (hd e) v) as [E2|E2]; rewrite ?E1, ?E2; ring.
Qed.
Lemma lap_energy (x : Z -> R) : Rsum (fun v => x v * Rsum (fun u => entryAt 0 m EVertex EVertex M v u * x u) (zl m EVertex)) (zl m EVertex) = Rsum (fun e => valAt w e * ((x (ta e) - x (hd e)) * (x (ta e) - x (hd e)))) (zl m EEdge).
Proof.
  rewrite (Rsum_ext _ (fun v => Rsum (fun h => x (ve m h) * (valAt w (edge h) * (x (ve m h) - x (ve m (tw h))))) (filter (fun h => (ve m h =? v)%Z) (zl m EHalfedge)))).
  - rewrite <- (Rsum_fiber Z.eqb zE (ve m)); [|apply zl_NoDup; auto|]. 2: { intros h Hh. apply zl_In in Hh; auto. apply zl_In; auto. cbn [liveE]. apply (cn_ve _ CN). auto. }
    rewrite (sum_edges m V). apply Rsum_ext. intros e He. rewrite !tw_edge, !edge_eHe, !tw_tw. fold (ta e) (hd e). ring.
  - intros v Hv. apply zl_In in Hv; auto. rewrite lap_action by auto. rewrite <- Rsum_scal. apply Rsum_ext. intros h Hh. apply filter_In in Hh as [_ Hh]. apply Z.eqb_eq in Hh. rewrite Hh. reflexivity.
Qed.
Hypothesis (HW : forall e, liveE m EEdge e -> valAt w e = wS (eHe e) + wS (tw (eHe e))).
Definition drop (x : Z -> R) (h : Z) : R := x (ve m h) - x (ve m (nx m h)).
Lemma lap_faces (x : Z -> R) : Rsum (fun v => x v * Rsum (fun u => entryAt 0 m EVertex EVertex M v u * x u) (zl m EVertex)) (zl m EVertex) = Rsum (fun f => Rsum (fun h => wH h * (drop x h * drop x h)) (ring3 m (fh m f))) (zl m EFace).
Proof.
  rewrite lap_energy. rewrite <- (sum_faces m V TR). transitivity (Rsum (fun h => wS h * ((x (ve m h) - x (ve m (tw h))) * (x (ve m h) - x (ve m (tw h))))) (zl m EHalfedge)).
  - rewrite (sum_edges m V). apply Rsum_ext. intros e He. apply zl_In in He; auto. rewrite HW by auto. rewrite tw_tw. fold (ta e) (hd e). ring.
  - rewrite (sum_halfedges m V). rewrite (Rsum_zero _ (filter (extb m) (zl m EHalfedge))). 2: { intros h Hh. apply filter_In in Hh as [_ X]. unfold wS. rewrite X. ring. } rewrite Rplus_0_r. apply Rsum_ext.
    intros h Hh. apply zl_In in Hh; auto. destruct Hh as [K X]. unfold wS. destruct (extb m h) eqn:Q; [exfalso; apply X, (extb_spec m); auto|]. unfold drop. rewrite (cn_vnx _ CN) by auto. reflexivity.
Qed.
Lemma drop_sum x h : intH h -> drop x h + drop x (nx m h) + drop x (nx m (nx m h)) = 0.
Proof. intros K. unfold drop. destruct (three m V TR h K) as (-> & _). ring. Qed.
Lemma ring_form x h : intH h -> Rsum (fun h => wH h * (drop x h * drop x h)) (ring3 m h) =
  cotWeight (L h) (L (nx m h)) (L (nx m (nx m h))) (areaH h) * (drop x h * drop x h) + cotWeight (L (nx m h)) (L (nx m (nx m h))) (L h) (areaH h) * (drop x (nx m h) * drop x (nx m h)) +
  cotWeight (L (nx m (nx m h))) (L h) (L (nx m h)) (areaH h) * (drop x (nx m (nx m h)) * drop x (nx m (nx m h))).
Proof. intros K. rewrite sum_ring3. unfold wH. pose proof (intH_nx m V h K) as K1. rewrite (areaH_nx m V TR len (nx m h)), (areaH_nx m V TR len h) by auto. destruct (three m V TR h K) as (-> & _). reflexivity. Qed.
Lemma ring_nonneg x f : In f (zl m EFace) -> 0 <= Rsum (fun h => wH h * (drop x h * drop x h)) (ring3 m (fh m f)).
Proof. intros Hf. apply zl_In in Hf; auto. destruct (fh_int m V f Hf) as [K0 _]. rewrite ring_form by auto. apply tri_energy; [apply (tri_at m V TR len MT); auto|apply drop_sum; auto]. Qed.
Lemma lap_psd x : 0 <= Rsum (fun v => x v * Rsum (fun u => entryAt 0 m EVertex EVertex M v u * x u) (zl m EVertex)) (zl m EVertex).
Proof.
  rewrite lap_faces. apply Rsum_nonneg, ring_nonneg.
Qed.
Lemma Rsum_zero_inv {A} (f : A -> R) l : (forall a, In a l -> 0 <= f a) -> Rsum f l = 0 -> forall a, In a l -> f a = 0.
Proof.
  induction l as [|b t IH]; intros P Z a I; [contradiction|]. rewrite Rsum_cons in Z. pose proof (P b (or_introl eq_refl)). pose proof (Rsum_nonneg f t (fun a K => P a (or_intror K))). destruct I as [<-|I]; [lra|]. apply IH; auto; [|lra]. intros; apply P; right; auto.
Qed.
Lemma lap_kernel x : Rsum (fun v => x v * Rsum (fun u => entryAt 0 m EVertex EVertex M v u * x u) (zl m EVertex)) (zl m EVertex) = 0 -> forall h, liveH m h -> x (ve m h) = x (ve m (tw h)).
Proof.
  rewrite lap_faces. intros Z. assert (G : forall h, intH h -> x (ve m h) = x (ve m (tw h))).
  { intros h K. pose proof (fa_liveF m V h K) as Lf. destruct (fh_int m V _ Lf) as [K0 F]. pose proof (Rsum_zero_inv _ _ (ring_nonneg x) Z (fa m h) (proj2 (zl_In m V EFace _) Lf)) as Z0.
    cbv beta in Z0. rewrite ring_form in Z0 by auto. apply tri_energy_zero in Z0 as (D1 & D2 & D3); [|apply (tri_at m V TR len MT); auto|apply drop_sum; auto].
    assert (D : drop x h = 0). { assert (In h (ring3 m (fh m (fa m h)))) as I by (apply (ring3_ok m V TR _ K0); rewrite F; auto). destruct I as [<-|[<-|[<-|[]]]]; auto. }
    unfold drop in D. rewrite (cn_vnx _ CN) in D by apply K. lra. }
  intros h K. destruct (extb m h) eqn:X; [|apply G; split; auto; apply not_ext; auto]. symmetry. assert (KT : liveH m (tw h)) by (apply (cn_tw _ CN); auto).
  rewrite G; [rewrite tw_tw; auto|]. split; auto. intros XT. apply (extb_spec m) in X. 
  destruct (Z.eq_dec (h mod 2) 0) as [P|P]; [apply (cn_ebd _ CN h K P X)|]. apply (cn_ebd _ CN (tw h) KT); auto. rewrite tw_mod. pose proof (Z.mod_pos_bound h 2). lia.
Qed.
End Lap.
End M.
