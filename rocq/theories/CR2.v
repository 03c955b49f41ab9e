From Coq Require Import Reals Lra Permutation.
From Verif Require Import Base DataModel DataSpec DataProofs MeshModel MeshSpec MeshBase MeshExec MeshOrbit MeshOpSpec MeshFlip MeshThms MeshSplit MeshHistorySpec MeshHistory MeshDataModel CollapseProofs CountSpec
  MatrixModel MatrixSpec MatrixProofs GeoModel IntrinsicModel IntrinsicSpec TangentSpec Intrinsic1 Intrinsic2 Intrinsic3 Intrinsic4 Intrinsic5 Intrinsic6 Intrinsic7 Intrinsic8 Intrinsic9 Intrinsic11 Intrinsic13 Intrinsic14 CRModel CRSpec CR1.
Open Scope R_scope.
Section M.
Context (m : mesh) (V : Valid m) (TR : triangular m) (len : mdata R) (MT : Metric m len).
Let CN := va_cn m V.
Local Notation intH := (intH m).
Local Notation n1 h := (nx m h).
Local Notation n2 h := (nx m (nx m h)).
Local Notation L := (lh len).
Local Notation eA := (eA m).
Local Notation eB := (eB m).
Context (hw : mdata R).
Local Notation W := (W hw).
Definition sg (h : Z) : R := if (h =? eHe (edge h))%Z then 1 else -1.
Definition sR (h : Z) : R := if Bool.eqb (orientation (n1 h)) (orientation (n2 h)) then 1 else -1.
Definition rotH (h : Z) : V2 := mk2 (- ((L (n2 h) * L (n2 h) + L (n1 h) * L (n1 h) - L h * L h) / (2 * L (n2 h) * L (n1 h)))) (2 * areaH m len h / (L (n2 h) * L (n1 h))).
Definition cPart (h : Z) : list (ztrip V2) :=
  [(eA h, eA h, mk2 (W h) 0); (eB h, eB h, mk2 (W h) 0); (eA h, eB h, mul2 (mul2 (rotH h) (- W h)) (sR h)); (eB h, eA h, mul2 (mul2 (conj2 (rotH h)) (- W h)) (sR h))].
Local Notation cTrips := (flat_map (fun f => flat_map cPart (ring3 m (fh m f))) (zl m EFace)).
Lemma cTrips_live t : In t cTrips -> liveE m EEdge (fst (fst t)) /\ liveE m EEdge (snd (fst t)).
Proof. revert t. apply (live_corners m V TR cPart (fun t => liveE m EEdge (fst (fst t)) /\ liveE m EEdge (snd (fst t)))). intros h t' K I. destruct (eAB m V h K). destruct I as [<-|[<-|[<-|[<-|[]]]]]; cbn [fst snd]; auto. Qed.
Lemma crConn_ok areas : goodAreas m len areas -> length (dat hw) = Z.to_nat (heCap m) -> exists M, crConnectionLaplacian m len areas hw = Ok M /\ rows M = Z.to_nat (nEdges m) /\ cols M = Z.to_nat (nEdges m) /\
  (forall u v, liveE m EEdge u -> liveE m EEdge v -> px (entryAt (mk2 0 0) m EEdge EEdge M u v) = Rsum (fun t => if ((fst (fst t) =? u) && (snd (fst t) =? v))%Z then px (snd t) else 0) cTrips) /\
  (forall u v, liveE m EEdge u -> liveE m EEdge v -> py (entryAt (mk2 0 0) m EEdge EEdge M u v) = Rsum (fun t => if ((fst (fst t) =? u) && (snd (fst t) =? v))%Z then py (snd t) else 0) cTrips).
Proof.
  intros GA LW. destruct (indices_ok m V EEdge) as (ei & EI & _ & HI); [right; left; auto|]. unfold crConnectionLaplacian. rewrite EI. cbn [bind].
  pose proof (gather_corners m V TR cPart EEdge EEdge (fun fn l h => let* (a, b) := crSides m h in let* i := dataAt ei (edge a) in let* j := dataAt ei (edge b) in
      let* w := dataAt hw h in let w := (4 * w)%R in
      let s := (if Bool.eqb (orientation a) (orientation b) then 1 else -1)%R in
      let* lOpp := dataAt len (edge h) in let* lA := dataAt len (edge b) in let* lB := dataAt len (edge a) in
      let* A := dataAt areas (Z.of_nat fn) in
      let cosT := ((lA * lA + lB * lB - lOpp * lOpp) / (2 * lA * lB))%R in let sinT := (2 * A / (lA * lB))%R in
      let rot := mk2 (- cosT)%R sinT in
      Ok (l ++ [(i, i, mk2 w 0%R); (j, j, mk2 w 0%R); (i, j, mul2 (mul2 rot (- w)%R) s); (j, i, mul2 (mul2 (conj2 rot) (- w)%R) s)]))) as G.
  destruct (els_ok m EFace V) as (E & _). rewrite E in *. cbn [bind] in *.
  match type of G with _ -> forEach _ _ ?b = _ => match goal with |- context [forEach _ _ ?c] => assert (EQ : forEach (els m EFace) [] c = forEach (els m EFace) [] b) end end.
  { unfold forEach. apply foldM_same. intros s a. rewrite Nat2Z.id. reflexivity. }
  rewrite EQ, G; clear G EQ.
  2: { intros f h acc K F. rewrite (crSides_ok m V TR) by auto. cbn [bind]. destruct (eAB m V h K) as [A B]. fold (eA h) (eB h). rewrite (proj1 (HI _ A)). cbn [bind]. rewrite (proj1 (HI _ B)). cbn [bind]. rewrite (dataAt_in 0) by (rewrite LW; apply (he_cap m V); apply K). cbn [bind].
       pose proof (intH_nx m V h K) as K1. pose proof (intH_nx m V _ K1) as K2. unfold CR1.eA, CR1.eB. rewrite !(len_ok m V len MT) by (apply K || apply K1 || apply K2). cbn [bind]. pose proof (fa_liveF m V h K) as LF. rewrite F in LF. rewrite Z2Nat.id by (destruct LF; lia). destruct GA as [LA HA].
       rewrite (dataAt_in 0) by (rewrite LA; apply (f_cap m V); auto). cbn [bind]. fold (valAt areas f). rewrite <- F, HA by auto. reflexivity. }
  cbn [bind]. change (nEdges m) with (nElements m EEdge). apply zsparse2; auto. apply cTrips_live.
Qed.
Context (M : smat V2).
Local Notation E := (entryAt (mk2 0 0) m EEdge EEdge M).
Hypothesis (SX : forall u v, liveE m EEdge u -> liveE m EEdge v -> px (E u v) = Rsum (fun t => if ((fst (fst t) =? u) && (snd (fst t) =? v))%Z then px (snd t) else 0) cTrips).
Hypothesis (SY : forall u v, liveE m EEdge u -> liveE m EEdge v -> py (E u v) = Rsum (fun t => if ((fst (fst t) =? u) && (snd (fst t) =? v))%Z then py (snd t) else 0) cTrips).
Lemma crc_herm a b : liveE m EEdge a -> liveE m EEdge b -> E a b = conj2 (E b a).
Proof.
  intros A B. apply V2_eq; cbn [px py conj2].
  - rewrite !SX by auto. rewrite !(sum_corners m V TR). apply Rsum_ext. intros h _. unfold cPart. rewrite !Rsum_cons, !Rsum_nil. cbn [fst snd px py mul2 conj2].
    rewrite (andb_comm (eA h =? b)%Z (eA h =? a)%Z), (andb_comm (eB h =? b)%Z (eB h =? a)%Z), (andb_comm (eA h =? b)%Z (eB h =? a)%Z), (andb_comm (eB h =? b)%Z (eA h =? a)%Z). ring.
  - rewrite !SY by auto. rewrite !(sum_corners m V TR). match goal with |- _ = - ?x => replace (- x) with (-1 * x) by ring end. rewrite <- Rsum_scal. apply Rsum_ext. intros h _. unfold cPart. rewrite !Rsum_cons, !Rsum_nil. cbn [fst snd px py mul2 conj2].
    rewrite (andb_comm (eA h =? b)%Z (eA h =? a)%Z), (andb_comm (eB h =? b)%Z (eB h =? a)%Z), (andb_comm (eA h =? b)%Z (eB h =? a)%Z), (andb_comm (eB h =? b)%Z (eA h =? a)%Z).
    destruct ((eA h =? a) && (eA h =? b))%Z, ((eB h =? a) && (eB h =? b))%Z, ((eB h =? a) && (eA h =? b))%Z, ((eA h =? a) && (eB h =? b))%Z; ring.
Qed.
Lemma crc_part (f : V2 -> R) (y : Z -> R) u : liveE m EEdge u -> (forall u v, liveE m EEdge u -> liveE m EEdge v -> f (E u v) = Rsum (fun t => if ((fst (fst t) =? u) && (snd (fst t) =? v))%Z then f (snd t) else 0) cTrips) ->
  Rsum (fun v => f (E u v) * y v) (zl m EEdge) = Rsum (fun h => Rsum (fun t : ztrip V2 => if (fst (fst t) =? u)%Z then f (snd t) * y (snd (fst t)) else 0) (cPart h)) (zl m ECorner).
Proof.
  intros Lu S. rewrite (zaction m V EEdge EEdge (map (fun t : ztrip V2 => (fst t, f (snd t))) cTrips) (fun u v => f (E u v)) y u); auto.
  - rewrite Rsum_map. rewrite (sum_corners m V TR). reflexivity.
  - intros t I. apply in_map_iff in I as (t' & <- & I). cbn. apply cTrips_live. auto.
  - intros b c Lb Lc. rewrite S by auto. rewrite Rsum_map. reflexivity.
Qed.
Definition toA (x : Z -> V2) h : V2 := mul2 (sub2 (x (eA h)) (mul2 (cmul (rotH h) (x (eB h))) (sR h))) (W h).
Definition toB (x : Z -> V2) h : V2 := mul2 (sub2 (x (eB h)) (mul2 (cmul (conj2 (rotH h)) (x (eA h))) (sR h))) (W h).
Lemma crc_row (x : Z -> V2) e : liveE m EEdge e -> Csum (fun v => cmul (E e v) (x v)) (zl m EEdge) =
  Csum (fun h => add2 (if (eA h =? e)%Z then toA x h else mk2 0 0) (if (eB h =? e)%Z then toB x h else mk2 0 0)) (zl m ECorner).
Proof.
  intros Lu. unfold Csum. f_equal; cbn [cmul px py].
  - rewrite Rsum_minus, (crc_part px), (crc_part py) by auto. rewrite <- Rsum_minus. apply Rsum_ext. intros h _. unfold cPart. rewrite !Rsum_cons, !Rsum_nil. cbn [fst snd]. unfold toA, toB. destruct (eA h =? e)%Z, (eB h =? e)%Z; cbn [px py mul2 sub2 add2 cmul conj2]; ring.
  - rewrite Rsum_plus, (crc_part px), (crc_part py) by auto. rewrite <- Rsum_plus. apply Rsum_ext. intros h _. unfold cPart. rewrite !Rsum_cons, !Rsum_nil. cbn [fst snd]. unfold toA, toB. destruct (eA h =? e)%Z, (eB h =? e)%Z; cbn [px py mul2 sub2 add2 cmul conj2]; ring.
Qed.
Lemma crc_energy0 (x : Z -> V2) : Rsum (fun e => dot2 (x e) (Csum (fun v => cmul (E e v) (x v)) (zl m EEdge))) (zl m EEdge) = Rsum (fun h => dot2 (x (eA h)) (toA x h) + dot2 (x (eB h)) (toB x h)) (zl m ECorner).
Proof.
  rewrite (Rsum_ext _ (fun e => Rsum (fun h => (if (eA h =? e)%Z then dot2 (x e) (toA x h) else 0) + (if (eB h =? e)%Z then dot2 (x e) (toB x h) else 0)) (zl m ECorner))).
  - rewrite Rsum_swap. apply Rsum_ext. intros h Hh. apply (corner_int m V) in Hh. destruct (eAB m V h Hh) as [A B]. rewrite Rsum_plus.
    rewrite (Rsum_delta Z.eqb zE (fun e => dot2 (x e) (toA x h))); [|apply zl_NoDup; auto|apply zl_In; auto]. rewrite (Rsum_delta Z.eqb zE (fun e => dot2 (x e) (toB x h))); [reflexivity|apply zl_NoDup; auto|apply zl_In; auto].
  - intros e He. apply zl_In in He; auto. rewrite crc_row by auto. rewrite dot_sum. apply Rsum_ext. intros h _. destruct (eA h =? e)%Z, (eB h =? e)%Z; unfold dot2; cbn [px py add2]; ring.
Qed.
(** the rotation is the one between the directions of the two sides in their face *)
Context (vec : mdata V2) (HV : forall h, intH h -> at_ (mk2 0 0) vec h = vecF m len h).
Local Notation v_ := (vecF m len).
Lemma rotH_eq h : intH h -> rotH h = mul2 (cmul (conj2 (v_ (n1 h))) (v_ (n2 h))) (1 / (L (n1 h) * L (n2 h))).
Proof.
  intros K. pose proof (intH_nx m V h K) as K1. pose proof (intH_nx m V _ K1) as K2. destruct (three m V TR h K) as (E3 & _).
  destruct (vecF_spec m V TR len MT h K) as (N0 & S0 & _). destruct (vecF_spec m V TR len MT _ K1) as (N1 & _ & C1). destruct (vecF_spec m V TR len MT _ K2) as (N2 & _). rewrite (areaH_nx m V TR len h K) in C1.
  pose proof (mt_pos _ _ MT _ (proj1 K1)) as P1. pose proof (mt_pos _ _ MT _ (proj1 K2)) as P2. unfold rotH. rewrite <- C1, <- N0, <- N1, <- N2.
  assert (v_ h = mk2 (- px (v_ (n1 h)) - px (v_ (n2 h))) (- py (v_ (n1 h)) - py (v_ (n2 h)))) as ->.
  { unfold add2 in S0. injection S0 as Sx Sy. cbn [px py] in *. apply V2_eq; cbn [px py]; lra. }
  unfold cross2, norm2_2. apply V2_eq; cbn [px py cmul conj2 mul2]; field; split; lra.
Qed.
Lemma sg_orient h : sg h = if orientation h then 1 else -1.
Proof. unfold sg, orientation, eHe, edge. pose proof (Z.div_mod h 2). pose proof (Z.mod_pos_bound h 2). destruct (Z.eqb_spec h (2 * (h / 2))), (Z.eqb_spec (h mod 2) 0); auto; lia. Qed.
Lemma sR_eq h : sR h = sg (n1 h) * sg (n2 h).
Proof. unfold sR. rewrite !sg_orient. destruct (orientation (n1 h)), (orientation (n2 h)); cbn; ring. Qed.
Lemma sg_sq h : sg h * sg h = 1. Proof. unfold sg. destruct (h =? eHe (edge h))%Z; ring. Qed.
Local Notation z x := (seenFrom len (vecAt vec) x).
Lemma seen_eq x h : intH h -> z x h = cmul (x (edge h)) (mul2 (v_ h) (sg h / L h)).
Proof. intros K. unfold seenFrom, vecAt. rewrite HV by auto. reflexivity. Qed.
Lemma crc_gap x h : intH h -> dot2 (x (eA h)) (toA x h) + dot2 (x (eB h)) (toB x h) = W h * norm2_2 (sub2 (z x (n1 h)) (z x (n2 h))).
Proof.
  intros K. pose proof (intH_nx m V h K) as K1. pose proof (intH_nx m V _ K1) as K2. rewrite !seen_eq by auto. unfold toA, toB. rewrite rotH_eq, sR_eq by auto. unfold CR1.eA, CR1.eB.
  destruct (vecF_spec m V TR len MT _ K1) as (N1 & _). destruct (vecF_spec m V TR len MT _ K2) as (N2 & _). pose proof (mt_pos _ _ MT _ (proj1 K1)) as P1. pose proof (mt_pos _ _ MT _ (proj1 K2)) as P2.
  pose proof (sg_sq (n1 h)) as G1. pose proof (sg_sq (n2 h)) as G2. unfold norm2_2 in N1, N2.
  set (a := v_ (n1 h)) in *. set (b := v_ (n2 h)) in *. set (p := x (edge (n1 h))). set (q := x (edge (n2 h))). set (s := sg (n1 h)) in *. set (t := sg (n2 h)) in *. set (l := L (n1 h)) in *. set (k := L (n2 h)) in *. set (w := W h).
  unfold dot2, norm2_2. cbn [px py mul2 sub2 cmul conj2].
  transitivity (w * (px p * px p + py p * py p + (px q * px q + py q * py q) - 2 * (s * t) * (1 / (l * k)) * (px p * ((px a * px b + py a * py b) * px q - (px a * py b - py a * px b) * py q) + py p * ((px a * py b - py a * px b) * px q + (px a * px b + py a * py b) * py q)))); [ring|]. symmetry.
  transitivity (w * ((px p * px p + py p * py p) * (s * s) * ((px a * px a + py a * py a) / (l * l)) + (px q * px q + py q * py q) * (t * t) * ((px b * px b + py b * py b) / (k * k)) - 2 * (s * t) * (1 / (l * k)) * (px p * ((px a * px b + py a * py b) * px q - (px a * py b - py a * px b) * py q) + py p * ((px a * py b - py a * px b) * px q + (px a * px b + py a * py b) * py q)))).
  - field. split; lra.
  - rewrite N1, N2, G1, G2. field. split; lra.
Qed.
Lemma crc_energy x : Rsum (fun e => dot2 (x e) (Csum (fun v => cmul (E e v) (x v)) (zl m EEdge))) (zl m EEdge) = Rsum (fun h => W h * norm2_2 (sub2 (z x (n1 h)) (z x (n2 h)))) (zl m ECorner).
Proof. rewrite crc_energy0. apply Rsum_ext. intros h Hh. apply (corner_int m V) in Hh. apply crc_gap. auto. Qed.
End M.
