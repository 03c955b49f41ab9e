From Coq Require Import Reals Lra Permutation.
From Verif Require Import Base DataModel DataSpec DataProofs MeshModel MeshSpec MeshBase MeshExec MeshOrbit MeshOpSpec MeshFlip MeshThms MeshSplit MeshHistorySpec MeshHistory MeshDataModel CollapseProofs CountSpec
  MatrixModel MatrixSpec MatrixProofs GeoModel IntrinsicModel IntrinsicSpec TangentSpec Intrinsic1 Intrinsic2 Intrinsic3 Intrinsic4 Intrinsic5 Intrinsic7 Intrinsic8 Intrinsic9 Intrinsic11 Intrinsic13 CRModel CRSpec.
Open Scope R_scope.
Section M.
Context (m : mesh) (V : Valid m) (TR : triangular m).
Let CN := va_cn m V.
Local Notation intH := (intH m).
Local Notation n1 h := (nx m h).
Local Notation n2 h := (nx m (nx m h)).
Lemma crSides_ok h : intH h -> crSides m h = Ok (n1 h, n2 h).
Proof.
  intros K. pose proof (intH_nx m V h K) as K1. pose proof (intH_nx m V _ K1) as K2. unfold crSides. rewrite next_live by (auto; apply K). cbn [bind]. rewrite next_live by (auto; apply K1). cbn [bind]. rewrite next_live by (auto; apply K2). cbn [bind].
  destruct (three m V TR h K) as (-> & _). rewrite Z.eqb_refl. reflexivity.
Qed.
(** sums over corners may be shifted around the triangles *)
Lemma shift1 (f : Z -> R) : Rsum (fun h => f (n1 h)) (zl m ECorner) = Rsum f (zl m ECorner).
Proof.
  apply Rsum_bij; [apply zl_NoDup; auto| |].
  - intros h Hh. apply zl_In in Hh; auto. apply zl_In; auto. apply (intH_nx m V). exact Hh.
  - intros a b Ha Hb E. apply zl_In in Ha, Hb; auto. destruct (three m V TR a Ha) as (<- & _). destruct (three m V TR b Hb) as (<- & _). rewrite E. reflexivity.
Qed.
Lemma corner_int h : In h (zl m ECorner) <-> intH h. Proof. rewrite zl_In by auto. reflexivity. Qed.
Lemma edgeI h : intH h -> liveE m EEdge (edge h). Proof. intros [K _]. apply edge_live; auto. Qed.
Lemma sidesIn_sum e l (f : Z -> R) : sidesIn m e l -> Rsum f l = Rsum (fun h => if (edge h =? e)%Z then f h else 0) (zl m ECorner).
Proof.
  intros [N I]. rewrite Rsum_if. apply Rsum_set; auto; [apply filter_NoDup, zl_NoDup; auto|]. intros h. rewrite I, filter_In, corner_int, Z.eqb_eq. unfold Intrinsic3.intH. tauto.
Qed.
(** assembling one list of triplets per corner *)
Lemma gather_corners {T} (P : Z -> list (ztrip T)) rk ck (body : nat -> list (nat * nat * T) -> Z -> res (list (nat * nat * T))) :
  (forall f h acc, intH h -> fa m h = f -> body (Z.to_nat f) acc h = Ok (acc ++ map (toTrip m rk ck) (P h))) ->
  (let* fs := elements m EFace in forEach fs [] (fun l f => let* hs := faceHalfedges m f in foldM (body (Z.to_nat f)) hs l)) = Ok (map (toTrip m rk ck) (flat_map (fun f => flat_map P (ring3 m (fh m f))) (zl m EFace))).
Proof.
  intros H. destruct (els_ok m EFace V) as (E & N & _ & I). rewrite E. cbn [bind]. rewrite forEach_map. fold (zl m EFace).
  rewrite (foldM_gather _ (fun f => map (toTrip m rk ck) (flat_map P (ring3 m (fh m f))))).
  - cbn [app]. rewrite <- map_flat. reflexivity.
  - intros acc f Hf. apply zl_In in Hf; auto. destruct (fh_int m V f Hf) as [K0 F0]. rewrite (ring3_face m V TR) by auto. cbn [bind]. rewrite (foldM_gather _ (fun h => map (toTrip m rk ck) (P h))).
    + rewrite <- map_flat. reflexivity.
    + intros acc' h Hh. apply (ring3_ok m V TR _ K0) in Hh as [K F]. apply H; auto. congruence.
Qed.
Lemma sum_corners {T} (P : Z -> list (ztrip T)) (g : ztrip T -> R) : Rsum g (flat_map (fun f => flat_map P (ring3 m (fh m f))) (zl m EFace)) = Rsum (fun h => Rsum g (P h)) (zl m ECorner).
Proof. rewrite Rsum_flat_map, (sum_faces m V TR). apply Rsum_ext. intros f _. apply Rsum_flat_map. Qed.
Lemma live_corners {T} (P : Z -> list (ztrip T)) (Q : ztrip T -> Prop) : (forall h t, intH h -> In t (P h) -> Q t) -> forall t, In t (flat_map (fun f => flat_map P (ring3 m (fh m f))) (zl m EFace)) -> Q t.
Proof.
  intros H t I. apply in_flat_map in I as (f & Hf & I). apply zl_In in Hf; auto. destruct (fh_int m V f Hf) as [K0 F0]. apply in_flat_map in I as (h & Hh & I). apply (ring3_ok m V TR _ K0) in Hh as [K _]. eauto.
Qed.
(** ** the Laplacian *)
Section Lap.
Context (hw : mdata R) (LW : length (dat hw) = Z.to_nat (heCap m)).
Definition W (h : Z) : R := 4 * valAt hw h.
Definition eA (h : Z) : Z := edge (n1 h).
Definition eB (h : Z) : Z := edge (n2 h).
Lemma eAB h : intH h -> liveE m EEdge (eA h) /\ liveE m EEdge (eB h).
Proof. intros K. pose proof (intH_nx m V h K) as K1. split; apply edgeI; auto. apply (intH_nx m V); auto. Qed.
Definition crPart (h : Z) : list (ztrip R) := [(eA h, eB h, - W h); (eB h, eA h, - W h); (eA h, eA h, W h); (eB h, eB h, W h)].
Local Notation crTrips := (flat_map (fun f => flat_map crPart (ring3 m (fh m f))) (zl m EFace)).
Lemma crTrips_live t : In t crTrips -> liveE m EEdge (fst (fst t)) /\ liveE m EEdge (snd (fst t)).
Proof. revert t. apply (live_corners crPart (fun t => liveE m EEdge (fst (fst t)) /\ liveE m EEdge (snd (fst t)))). intros h t' K I. destruct (eAB h K). destruct I as [<-|[<-|[<-|[<-|[]]]]]; cbn [fst snd]; auto. Qed.
Lemma crLap_ok : exists M, crLaplacian m hw = Ok M /\ rows M = Z.to_nat (nEdges m) /\ cols M = Z.to_nat (nEdges m) /\
  forall a b, liveE m EEdge a -> liveE m EEdge b -> entryAt 0 m EEdge EEdge M a b = Rsum (fun t => if ((fst (fst t) =? a) && (snd (fst t) =? b))%Z then snd t else 0) crTrips.
Proof.
  destruct (indices_ok m V EEdge) as (ei & EI & _ & HI); [right; left; auto|]. unfold crLaplacian. rewrite EI. cbn [bind].
  pose proof (gather_corners crPart EEdge EEdge (fun _ l h => let* (a, b) := crSides m h in let* i := dataAt ei (edge a) in let* j := dataAt ei (edge b) in
      let* w := dataAt hw h in let w := (4 * w)%R in Ok (l ++ [(i, j, (- w)%R); (j, i, (- w)%R); (i, i, w); (j, j, w)]))) as G.
  destruct (elements m EFace) as [fs| |] eqn:E; [|destruct (els_ok m EFace V) as (E' & _); congruence|destruct (els_ok m EFace V) as (E' & _); congruence]. cbn [bind] in *. rewrite G; clear G.
  2: { intros f h acc K F. rewrite crSides_ok by auto. cbn [bind]. destruct (eAB h K) as [A B]. fold (eA h) (eB h). rewrite (proj1 (HI _ A)). cbn [bind]. rewrite (proj1 (HI _ B)). cbn [bind]. rewrite (dataAt_in 0) by (rewrite LW; apply (he_cap m V); apply K). cbn [bind]. reflexivity. }
  cbn [bind]. destruct (zsparse m V Rplus 0 (fun x => x) (fun _ _ => eq_refl) eq_refl EEdge EEdge crTrips crTrips_live) as (M & EM & R & C & S). exists M. split; [exact EM|]. split; auto.
Qed.
Context (M : smat R) (S : forall a b, liveE m EEdge a -> liveE m EEdge b -> entryAt 0 m EEdge EEdge M a b = Rsum (fun t => if ((fst (fst t) =? a) && (snd (fst t) =? b))%Z then snd t else 0) crTrips).
Local Notation el := (entryAt 0 m EEdge EEdge M).
Lemma cr_sym a b : liveE m EEdge a -> liveE m EEdge b -> el a b = el b a.
Proof.
  intros A B. rewrite !S by auto. rewrite !sum_corners. apply Rsum_ext. intros h _. unfold crPart. rewrite !Rsum_cons, !Rsum_nil. cbn [fst snd].
  rewrite (andb_comm (eA h =? b)%Z (eA h =? a)%Z), (andb_comm (eB h =? b)%Z (eB h =? a)%Z), (andb_comm (eA h =? b)%Z (eB h =? a)%Z), (andb_comm (eB h =? b)%Z (eA h =? a)%Z). ring.
Qed.
Lemma cr_row (x : Z -> R) e : liveE m EEdge e -> Rsum (fun b => el e b * x b) (zl m EEdge) =
  Rsum (fun h => (if (eA h =? e)%Z then W h * (x (eA h) - x (eB h)) else 0) + (if (eB h =? e)%Z then W h * (x (eB h) - x (eA h)) else 0)) (zl m ECorner).
Proof.
  intros Le. rewrite (zaction m V EEdge EEdge _ el x e crTrips_live S Le). rewrite sum_corners. apply Rsum_ext. intros h _. unfold crPart. rewrite !Rsum_cons, !Rsum_nil. cbn [fst snd]. destruct (eA h =? e)%Z, (eB h =? e)%Z; ring.
Qed.
Lemma cr_action (x : Z -> R) e l : liveE m EEdge e -> sidesIn m e l ->
  Rsum (fun b => el e b * x b) (zl m EEdge) = Rsum (fun h => 4 * valAt hw (n2 h) * (x e - x (edge (n1 h))) + 4 * valAt hw (n1 h) * (x e - x (edge (n2 h)))) l.
Proof.
  intros Le SL. rewrite cr_row by auto. rewrite (sidesIn_sum e l _ SL). rewrite Rsum_plus.
  rewrite (Rsum_ext _ (fun h => (fun y => if (edge y =? e)%Z then 4 * valAt hw (n2 y) * (x e - x (edge (n1 y))) else 0) (n1 h)) (zl m ECorner)).
  2: { intros h Hh. apply corner_int in Hh. cbv beta. unfold eA, eB, W. destruct (three m V TR h Hh) as (-> & _). destruct (Z.eqb_spec (edge (n1 h)) e) as [->|]; reflexivity. }
  rewrite (shift1 (fun y => if (edge y =? e)%Z then 4 * valAt hw (n2 y) * (x e - x (edge (n1 y))) else 0)).
  rewrite (Rsum_ext (fun h => if (eB h =? e)%Z then _ else _) (fun h => (fun z => (fun y => if (edge y =? e)%Z then 4 * valAt hw (n1 y) * (x e - x (edge (n2 y))) else 0) (n1 z)) (n1 h)) (zl m ECorner)).
  2: { intros h Hh. apply corner_int in Hh. cbv beta. unfold eA, eB, W. destruct (three m V TR h Hh) as (-> & _). destruct (Z.eqb_spec (edge (n2 h)) e) as [->|]; reflexivity. }
  rewrite (shift1 (fun z => (fun y => if (edge y =? e)%Z then 4 * valAt hw (n1 y) * (x e - x (edge (n2 y))) else 0) (n1 z))). rewrite (shift1 (fun y => if (edge y =? e)%Z then 4 * valAt hw (n1 y) * (x e - x (edge (n2 y))) else 0)).
  rewrite <- Rsum_plus. apply Rsum_ext. intros h _. destruct (edge h =? e)%Z; ring.
Qed.
Lemma cr_const e : liveE m EEdge e -> Rsum (el e) (zl m EEdge) = 0.
Proof. intros Le. rewrite (Rsum_ext _ (fun b => el e b * 1)) by (intros; ring). rewrite (cr_row (fun _ => 1)) by auto. apply Rsum_zero. intros h _. destruct (eA h =? e)%Z, (eB h =? e)%Z; ring. Qed.
Definition gapE (x : Z -> R) (h : Z) : R := x (eA h) - x (eB h).
Lemma cr_energy (x : Z -> R) : Rsum (fun e => x e * Rsum (fun b => el e b * x b) (zl m EEdge)) (zl m EEdge) = Rsum (fun h => W h * (gapE x h * gapE x h)) (zl m ECorner).
Proof.
  rewrite (Rsum_ext _ (fun e => Rsum (fun h => (if (eA h =? e)%Z then x e * (W h * gapE x h) else 0) + (if (eB h =? e)%Z then x e * (W h * - gapE x h) else 0)) (zl m ECorner))).
  - rewrite Rsum_swap. apply Rsum_ext. intros h Hh. apply corner_int in Hh. destruct (eAB h Hh) as [A B]. rewrite Rsum_plus.
    rewrite (Rsum_delta Z.eqb zE (fun e => x e * (W h * gapE x h))); [|apply zl_NoDup; auto|apply zl_In; auto]. rewrite (Rsum_delta Z.eqb zE (fun e => x e * (W h * - gapE x h))); [|apply zl_NoDup; auto|apply zl_In; auto]. unfold gapE. ring.
  - intros e He. apply zl_In in He; auto. rewrite cr_row by auto. rewrite <- Rsum_scal. apply Rsum_ext. intros h _. unfold gapE. destruct (eA h =? e)%Z, (eB h =? e)%Z; ring.
Qed.
End Lap.
(** ** the mass matrix *)
Section Mass.
Context (areas : mdata R) (LA : length (dat areas) = Z.to_nat (fCap m - bFill m)).
Local Notation AH h := (valAt areas (fa m h)).
Local Notation inS e := (filter (fun h => negb (extb m h)) (sides e)).
Definition massPart (e : Z) : list (ztrip R) := map (fun h => (e, e, AH h / 3)) (inS e).
Lemma inS_ok e : liveE m EEdge e -> sidesIn m e (inS e).
Proof.
  intros K. destruct (sides_live m V e K) as [K1 K2]. split.
  - apply filter_NoDup. unfold sides. constructor; [intros [Q|[]]; revert Q; apply tw_neq|]. constructor; [auto|constructor].
  - intros h. rewrite filter_In, negb_true_iff. split.
    + intros [I X]. split; [destruct I as [<-|[<-|[]]]; auto|]. split; [apply (not_ext m); auto|]. destruct I as [<-|[<-|[]]]; rewrite ?tw_edge, edge_eHe; auto.
    + intros (L & X & E). split; [|destruct (extb m h) eqn:Q; auto; exfalso; apply X, (extb_spec m); auto]. subst e. unfold sides. destruct (eHe_edge h) as [->| ->]; [left; auto|right; left; apply tw_tw].
Qed.
Lemma crMass_ok : exists M, crMass m areas = Ok M /\ rows M = Z.to_nat (nEdges m) /\ cols M = Z.to_nat (nEdges m) /\
  forall a b, liveE m EEdge a -> liveE m EEdge b -> entryAt 0 m EEdge EEdge M a b = if (a =? b)%Z then Rsum (fun h => AH h / 3) (inS a) else 0.
Proof.
  destruct (indices_ok m V EEdge) as (ei & EI & _ & HI); [right; left; auto|]. destruct (els_ok m EEdge V) as (E & N & _ & I). unfold crMass. rewrite EI. cbn [bind]. rewrite E. cbn [bind]. rewrite forEach_map. fold (zl m EEdge).
  rewrite (foldM_gather _ (fun e => map (toTrip m EEdge EEdge) (massPart e))).
  2: { intros acc e He. apply zl_In in He; auto. rewrite (proj1 (HI _ He)). cbn [bind]. destruct (sides_live m V e He) as [K1 K2]. rewrite (interior_filter m V) by (intros h [<-|[<-|[]]]; auto). cbn [bind].
       rewrite (foldM_gather _ (fun h => [(indexOf m EEdge e, indexOf m EEdge e, AH h / 3)])).
       - f_equal. f_equal. unfold massPart. rewrite map_map. induction (inS e) as [|h t IH]; [reflexivity|]. cbn. f_equal.
       - intros acc' h Hh. apply (inS_ok e He) in Hh as (L & X & _). assert (K : intH h) by (split; auto). rewrite (faceOf_int m V) by auto. cbn [bind]. rewrite (dataAt_in 0) by (rewrite LA; apply (f_cap m V), fa_liveF; auto). reflexivity. }
  cbn [bind app]. rewrite <- map_flat. destruct (zsparse m V Rplus 0 (fun x => x) (fun _ _ => eq_refl) eq_refl EEdge EEdge (flat_map massPart (zl m EEdge))) as (M & EM & R & C & S).
  - intros t It. apply in_flat_map in It as (e & He & It). apply zl_In in He; auto. apply in_map_iff in It as (h & <- & _). auto.
  - exists M. split; [exact EM|]. split; auto. split; auto. intros a b La Lb. rewrite S by auto. rewrite Rsum_flat_map.
    rewrite (Rsum_ext _ (fun e => if (a =? e)%Z then (if (e =? b)%Z then Rsum (fun h => AH h / 3) (inS e) else 0) else 0)).
    + rewrite (Rsum_delta Z.eqb zE (fun e => if (e =? b)%Z then Rsum (fun h => AH h / 3) (inS e) else 0)); [reflexivity|apply zl_NoDup; auto|apply zl_In; auto].
    + intros e _. unfold massPart. rewrite Rsum_map. cbn [fst snd]. rewrite (Z.eqb_sym a e). destruct (e =? a)%Z, (e =? b)%Z; cbn [andb]; auto; apply Rsum_zero; auto.
Qed.
Lemma mass_total : Rsum (fun e => Rsum (fun h => AH h / 3) (inS e)) (zl m EEdge) = Rsum (valAt areas) (zl m EFace).
Proof.
  transitivity (Rsum (fun h => if extb m h then 0 else AH h / 3) (zl m EHalfedge)).
  - rewrite (sum_edges m V). apply Rsum_ext. intros e _. rewrite <- Rsum_if. unfold sides. rewrite !Rsum_cons, Rsum_nil. destruct (extb m (eHe e)), (extb m (tw (eHe e))); cbn [negb]; ring.
  - rewrite (sum_halfedges m V). rewrite (Rsum_zero _ (filter (extb m) (zl m EHalfedge))) by (intros h Hh; apply filter_In in Hh as [_ ->]; auto). rewrite Rplus_0_r. rewrite (sum_faces m V TR). apply Rsum_ext. intros f Hf. apply zl_In in Hf; auto. destruct (fh_int m V f Hf) as [K0 F0].
    rewrite (Rsum_ext _ (fun _ => valAt areas f / 3)). 2: { intros h Hh. apply (ring3_ok m V TR _ K0) in Hh as [[_ X] Q]. destruct (extb m h) eqn:B; [exfalso; apply X, (extb_spec m); auto|]. rewrite Q, F0. reflexivity. }
    rewrite Rsum_const. unfold ring3. cbn [length INR]. field.
Qed.
End Mass.
End M.
