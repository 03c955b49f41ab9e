From Coq Require Import Reals Lra Permutation.
From Verif Require Import Base DataModel DataSpec DataProofs MeshModel MeshSpec MeshBase MeshExec MeshOrbit MeshOpSpec MeshFlip MeshThms MeshSplit MeshHistorySpec MeshHistory MeshDataModel CollapseProofs CountSpec
  MatrixModel MatrixSpec MatrixProofs GeoModel IntrinsicModel IntrinsicSpec Intrinsic1 Intrinsic2 Intrinsic3 Intrinsic4 Intrinsic5 Intrinsic7 Intrinsic8.
Open Scope R_scope.
Lemma eHe_edge h : eHe (edge h) = h \/ eHe (edge h) = tw h. Proof. apply edge_eq; apply edge_eHe. Qed.
Section M.
Context (m : mesh) (V : Valid m).
Let CN := va_cn m V.
Local Notation intH := (intH m).
Local Notation ta := (ta m).
Local Notation hd := (hd m).
Lemma zquad k (zt : list (ztrip R)) (phi : Z -> Z -> R) (x : Z -> R) :
  (forall t, In t zt -> liveE m k (fst (fst t)) /\ liveE m k (snd (fst t))) ->
  (forall a b, liveE m k a -> liveE m k b -> phi a b = Rsum (fun t => if ((fst (fst t) =? a) && (snd (fst t) =? b))%Z then snd t else 0) zt) ->
  Rsum (fun a => x a * Rsum (fun b => phi a b * x b) (zl m k)) (zl m k) = Rsum (fun t => x (fst (fst t)) * snd t * x (snd (fst t))) zt.
Proof.
  intros H P. rewrite (Rsum_ext _ (fun a => Rsum (fun t : ztrip R => x a * (if (fst (fst t) =? a)%Z then snd t * x (snd (fst t)) else 0)) zt)).
  - rewrite Rsum_swap. apply Rsum_ext. intros t I. destruct (H t I) as [A B]. rewrite (Rsum_ext _ (fun a => if (fst (fst t) =? a)%Z then x a * snd t * x (snd (fst t)) else 0)) by (intros a _; destruct (fst (fst t) =? a)%Z; ring).
    rewrite (Rsum_delta Z.eqb zE (fun a => x a * snd t * x (snd (fst t)))); auto; [apply zl_NoDup; auto|apply zl_In; auto].
  - intros a Ha. apply zl_In in Ha; auto. rewrite (zaction m V k k zt phi x a H P Ha). rewrite <- Rsum_scal. reflexivity.
Qed.
(** ** d0 *)
Definition d0Part (e : Z) : list (ztrip R) := [(e, hd e, 1); (e, ta e, -1)].
Definition inc (e v : Z) : R := (if (hd e =? v)%Z then 1 else 0) - (if (ta e =? v)%Z then 1 else 0).
Lemma d0_ok : exists M, decD0 m = Ok M /\ rows M = Z.to_nat (nEdges m) /\ cols M = Z.to_nat (nVertices m) /\ (forall e v, liveE m EEdge e -> liveV m v -> entryAt 0 m EEdge EVertex M e v = inc e v).
Proof.
  destruct (indices_ok m V EVertex) as (vi & EI & _ & HI); [left; auto|]. destruct (indices_ok m V EEdge) as (ei & EJ & _ & HJ); [right; left; auto|]. destruct (els_ok m EEdge V) as (E & N & _ & I). unfold decD0. rewrite EI. cbn [bind]. rewrite EJ. cbn [bind]. rewrite E. cbn [bind]. rewrite forEach_map. fold (zl m EEdge).
  rewrite (foldM_gather _ (fun e => map (toTrip m EEdge EVertex) (d0Part e))).
  2: { intros acc e He. apply zl_In in He; auto. destruct (zl_tail m V e He) as (K & T1 & T2 & A & B). rewrite (proj1 (HJ _ He)). cbn [bind]. rewrite T1, T2. cbn [bind]. rewrite (proj1 (HI _ B)). cbn [bind]. rewrite (proj1 (HI _ A)). reflexivity. }
  cbn [bind app]. rewrite <- map_flat. destruct (zsparse m V Rplus 0 (fun x => x) (fun _ _ => eq_refl) eq_refl EEdge EVertex (flat_map d0Part (zl m EEdge))) as (M & EM & R & C & S).
  { intros t It. apply in_flat_map in It as (e & He & It). apply zl_In in He; auto. destruct (ev_live m V e He). destruct It as [<-|[<-|[]]]; cbn [fst snd]; auto. }
  exists M. split; [exact EM|]. split; auto. split; auto. intros e v Ke Kv. rewrite S by auto. rewrite Rsum_flat_map.
  rewrite (Rsum_ext _ (fun e' => if (e =? e')%Z then inc e' v else 0)).
  - apply (Rsum_delta Z.eqb zE (fun e' => inc e' v)); [apply zl_NoDup; auto|apply zl_In; auto].
  - intros e' _. unfold d0Part. rewrite !Rsum_cons, Rsum_nil. cbn [fst snd]. rewrite (Z.eqb_sym e e'). unfold inc. destruct (e' =? e)%Z; cbn [andb]; [|ring]. destruct (hd e' =? v)%Z, (ta e' =? v)%Z; ring.
Qed.
Lemma inc_sum e (x : Z -> R) : liveE m EEdge e -> Rsum (fun v => inc e v * x v) (zl m EVertex) = x (hd e) - x (ta e).
Proof.
  intros K. destruct (ev_live m V e K) as [A B]. unfold inc. rewrite (Rsum_ext _ (fun v => (if (hd e =? v)%Z then x v else 0) - (if (ta e =? v)%Z then x v else 0))) by (intros v _; destruct (hd e =? v)%Z, (ta e =? v)%Z; ring).
  rewrite Rsum_minus. rewrite !(Rsum_delta Z.eqb zE x); auto; try (apply zl_NoDup; auto); apply zl_In; auto.
Qed.
(** L = d0^T *1 d0 *)
Lemma lap_factor w a b : Rsum (fun t => if ((fst (fst t) =? a) && (snd (fst t) =? b))%Z then snd t else 0) (flat_map (lapPart m w) (zl m EEdge)) = Rsum (fun e => inc e a * valAt w e * inc e b) (zl m EEdge).
Proof.
  rewrite Rsum_flat_map. apply Rsum_ext. intros e _. unfold lapPart. rewrite !Rsum_cons, Rsum_nil. cbn [fst snd]. unfold inc. destruct (ta e =? a)%Z, (hd e =? a)%Z, (ta e =? b)%Z, (hd e =? b)%Z; cbn [andb]; ring.
Qed.
(** ** diagonal matrices *)
Lemma wr_nth (d : list R) i x : (i < length d)%nat -> exists d', wr d i x = Ok d' /\ length d' = length d /\ forall j, nth j d' 0 = if Nat.eqb i j then x else nth j d 0.
Proof. intros H. unfold wr. rewrite (proj2 (Nat.ltb_lt _ _) H). exists (upd d i x). split; auto. split; [apply len_upd|]. intros j. apply nth_upd_R. auto. Qed.
Lemma diag_fill k (ratio : Z -> res R) (val : Z -> R) : good k -> (forall e, liveE m k e -> ratio e = Ok (val e)) ->
  exists d, diagonalOf m k ratio = Ok d /\ length d = Z.to_nat (nElements m k) /\ forall e, liveE m k e -> nth (indexOf m k e) d 0 = val e.
Proof.
  intros G H. destruct (indices_ok m V k G) as (ind & EI & _ & HI). destruct (els_ok m k V) as (E & N & _ & I). unfold diagonalOf. rewrite EI. cbn [bind]. rewrite E. cbn [bind]. rewrite forEach_map. fold (zl m k).
  assert (Gn : forall l d, NoDup l -> (forall e, In e l -> liveE m k e) -> length d = Z.to_nat (nElements m k) -> exists d', foldM (fun d e => let* x := ratio e in let* i := dataAt ind e in wr d i x) l d = Ok d' /\ length d' = length d /\
    forall e, liveE m k e -> nth (indexOf m k e) d' 0 = if existsb (Z.eqb e) l then val e else nth (indexOf m k e) d 0).
  { induction l as [|e t IH]; intros d Nl Il Ld; [exists d; cbn; auto|]. inversion Nl as [|? ? N1 N2]; subst. cbn [foldM]. assert (K : liveE m k e) by (apply Il; left; auto). rewrite H by auto. cbn [bind]. rewrite (proj1 (HI e K)). cbn [bind].
    destruct (wr_nth d (indexOf m k e) (val e)) as (d1 & W & L1 & V1); [rewrite Ld; apply index_lt; auto|]. rewrite W. cbn [bind]. destruct (IH d1 N2 (fun e K => Il e (or_intror K)) ltac:(congruence)) as (d2 & F & L2 & V2). exists d2. split; auto. split; [congruence|].
    intros e' K'. rewrite V2, V1 by auto. cbn [existsb]. destruct (Z.eqb_spec e' e) as [->|Q]; cbn [orb].
    - rewrite Nat.eqb_refl. destruct (existsb _ t); auto.
    - rewrite (proj2 (Nat.eqb_neq _ _)); auto. intros Q'. apply Q. apply (index_inj m V k); auto. }
  destruct (Gn (zl m k) (repeat 0 (Z.to_nat (nElements m k)))) as (d & F & Ld & Vd); [apply zl_NoDup; auto|intros e He; apply zl_In; auto|apply repeat_length|].
  exists d. split; [exact F|]. split; [rewrite Ld; apply repeat_length|]. intros e K. rewrite Vd by auto. rewrite (proj2 (existsb_exists _ _)); auto. exists e. split; [apply zl_In; auto|apply Z.eqb_refl].
Qed.
Lemma lumped_ok dual : length (dat dual) = Z.to_nat (vCap m) -> exists d, lumpedMass m dual = Ok d /\ length d = Z.to_nat (nVertices m) /\ forall v, liveV m v -> nth (indexOf m EVertex v) d 0 = valAt dual v.
Proof.
  intros LD. destruct (els_ok m EVertex V) as (E & N & C & I). unfold lumpedMass. rewrite E. cbn [bind]. rewrite forEach_map. change (nElements m EVertex) with (nVertices m) in C.
  assert (Gn : forall l pre d, els m EVertex = pre ++ l -> length d = Z.to_nat (nVertices m) -> exists d' n, foldM (fun (s : list R * nat) v => let (d, i) := s in let* a := dataAt dual v in let* d := wr d i a in Ok (d, S i)) (map Z.of_nat l) (d, length pre) = Ok (d', n) /\ length d' = length d /\
    forall j, nth j d' 0 = if Nat.ltb j (length pre) then nth j d 0 else match nth_error l (j - length pre) with Some v => valAt dual (Z.of_nat v) | None => nth j d 0 end).
  { induction l as [|v t IH]; intros pre d Q Ld.
    - exists d, (length pre). split; [reflexivity|]. split; auto. intros j. destruct (j <? length pre)%nat; auto. destruct (j - length pre)%nat; auto.
    - cbn [map foldM]. assert (K : liveV m (Z.of_nat v)) by (apply (I v); rewrite Q; apply in_or_app; right; left; auto). rewrite (dataAt_in 0) by (rewrite LD; apply (v_cap m V); auto). cbn [bind].
      assert (LL : (length pre < length d)%nat) by (rewrite Ld, <- C, Q, app_length, Nat2Z.id; cbn; lia). destruct (wr_nth d (length pre) (valAt dual (Z.of_nat v)) LL) as (d1 & W & L1 & V1). fold (valAt dual (Z.of_nat v)). rewrite W. cbn [bind].
      destruct (IH (pre ++ [v]) d1) as (d2 & n & F & L2 & V2); [rewrite Q, <- app_assoc; reflexivity|congruence|]. rewrite app_length in F, V2. cbn [length] in F, V2. replace (length pre + 1)%nat with (S (length pre)) in F, V2 by lia. exists d2, n. split; [exact F|]. split; [congruence|].
      intros j. rewrite V2, V1. destruct (Nat.ltb_spec j (S (length pre))) as [A|A].
      + destruct (Nat.eqb_spec (length pre) j) as [<-|B]; [rewrite Nat.ltb_irrefl, Nat.sub_diag; reflexivity|]. rewrite (proj2 (Nat.ltb_lt j (length pre))) by lia. reflexivity.
      + rewrite (proj2 (Nat.ltb_ge j (length pre))) by lia. replace (j - length pre)%nat with (S (j - S (length pre))) by lia. cbn [nth_error]. rewrite (proj2 (Nat.eqb_neq _ _)) by lia. reflexivity. }
  destruct (Gn (els m EVertex) [] (repeat 0 (Z.to_nat (nVertices m))) eq_refl (repeat_length _ _)) as (d & n & F & Ld & Vd). cbn [length] in F. rewrite F. cbn [bind]. exists d. split; auto. split; [rewrite Ld; apply repeat_length|].
  intros v K. rewrite Vd. cbn [Nat.ltb length]. rewrite Nat.sub_0_r. rewrite index_els by auto. assert (IN : In (Z.to_nat v) (els m EVertex)) by (apply I; rewrite Z2Nat.id by (destruct K; lia); exact K). rewrite (proj2 (place_nth _ _ IN)). rewrite Z2Nat.id by (destruct K; lia). reflexivity.
Qed.
Context (TR : triangular m).
(** ** d1 *)
Definition sgn (h : Z) : R := if (h =? eHe (edge h))%Z then 1 else -1.
Definition d1Part (f : Z) : list (ztrip R) := map (fun h => (f, edge h, sgn h)) (ring3 m (fh m f)).
Lemma edge_live h : liveH m h -> liveE m EEdge (edge h).
Proof. intros K. cbn [liveE]. destruct (eHe_edge h) as [-> | ->]; auto. apply (cn_tw _ CN); auto. Qed.
Lemma flat_single {A B} (f : A -> B) l : flat_map (fun a => [f a]) l = map f l. Proof. induction l; cbn; congruence. Qed.
Lemma d1_ok : exists M, decD1 m = Ok M /\ rows M = Z.to_nat (nFaces m) /\ cols M = Z.to_nat (nEdges m) /\
  (forall f (x : Z -> R), liveF m f -> Rsum (fun e => entryAt 0 m EFace EEdge M f e * x e) (zl m EEdge) = Rsum (fun h => sgn h * x (edge h)) (ring3 m (fh m f))).
Proof.
  destruct (indices_ok m V EEdge) as (ei & EJ & _ & HJ); [right; left; auto|]. destruct (indices_ok m V EFace) as (fi & EI & _ & HI); [right; right; auto|]. destruct (els_ok m EFace V) as (E & N & _ & I). unfold decD1. rewrite EJ. cbn [bind]. rewrite EI. cbn [bind]. rewrite E. cbn [bind]. rewrite forEach_map. fold (zl m EFace).
  rewrite (foldM_gather _ (fun f => map (toTrip m EFace EEdge) (d1Part f))).
  2: { intros acc f Hf. apply zl_In in Hf; auto. rewrite (proj1 (HI f Hf)). cbn [bind]. rewrite (ring3_face m V TR) by auto. cbn [bind]. destruct (fh_int m V f Hf) as [K0 F0].
       rewrite (foldM_gather _ (fun h => [toTrip m EFace EEdge (f, edge h, sgn h)])). 2: { intros a h Hh. apply (ring3_ok m V TR _ K0) in Hh as [Kh _]. rewrite (proj1 (HJ _ (edge_live h (proj1 Kh)))). reflexivity. }
       rewrite flat_single. unfold d1Part. rewrite map_map. reflexivity. }
  cbn [bind app]. rewrite <- map_flat. assert (LT : forall t, In t (flat_map d1Part (zl m EFace)) -> liveE m EFace (fst (fst t)) /\ liveE m EEdge (snd (fst t))).
  { intros t It. apply in_flat_map in It as (f & Hf & It). apply zl_In in Hf; auto. destruct (fh_int m V f Hf) as [K0 F0]. apply in_map_iff in It as (h & <- & Hh). apply (ring3_ok m V TR _ K0) in Hh as [Kh _]. cbn [fst snd]. split; auto. apply edge_live, Kh. }
  destruct (zsparse m V Rplus 0 (fun x => x) (fun _ _ => eq_refl) eq_refl EFace EEdge (flat_map d1Part (zl m EFace)) LT) as (M & EM & R & C & S).
  exists M. split; [exact EM|]. split; auto. split; auto. intros f x Kf. rewrite (zaction m V EFace EEdge _ (entryAt 0 m EFace EEdge M) x f LT S Kf). rewrite Rsum_flat_map.
  rewrite (Rsum_ext _ (fun f' => if (f =? f')%Z then Rsum (fun h => sgn h * x (edge h)) (ring3 m (fh m f')) else 0)).
  - apply (Rsum_delta Z.eqb zE (fun f' => Rsum (fun h => sgn h * x (edge h)) (ring3 m (fh m f')))); [apply zl_NoDup; auto|apply zl_In; auto].
  - intros f' _. unfold d1Part. rewrite Rsum_map. cbn [fst snd]. rewrite (Z.eqb_sym f f'). destruct (f' =? f)%Z; auto. apply Rsum_zero. auto.
Qed.
Lemma sgn_inc h v : sgn h * inc (edge h) v = (if (ve m (tw h) =? v)%Z then 1 else 0) - (if (ve m h =? v)%Z then 1 else 0).
Proof.
  unfold sgn, inc, Intrinsic8.ta, Intrinsic8.hd. destruct (eHe_edge h) as [E|E]; rewrite E; [rewrite Z.eqb_refl; ring|]. rewrite tw_tw. rewrite (proj2 (Z.eqb_neq h (tw h))) by (intros Q; symmetry in Q; revert Q; apply tw_neq). ring.
Qed.
Lemma d1_d0 f v : liveF m f -> Rsum (fun h => sgn h * inc (edge h) v) (ring3 m (fh m f)) = 0.
Proof.
  intros Kf. destruct (fh_int m V f Kf) as [K0 _]. pose proof (intH_nx m V _ K0) as K1. pose proof (intH_nx m V _ K1) as K2. rewrite (Rsum_ext _ _ _ (fun h _ => sgn_inc h v)). rewrite sum_ring3.
  rewrite <- !(cn_vnx _ CN) by (apply K0 || apply K1 || apply K2). destruct (three m V TR _ K0) as (-> & _). ring.
Qed.
Lemma sgn_tw h : sgn (tw h) = - sgn h.
Proof.
  unfold sgn. rewrite tw_edge. destruct (eHe_edge h) as [E|E]; rewrite E; rewrite Z.eqb_refl; [rewrite (proj2 (Z.eqb_neq (tw h) h)) by apply tw_neq|rewrite (proj2 (Z.eqb_neq h (tw h))) by (intros Q; symmetry in Q; revert Q; apply tw_neq)]; ring.
Qed.
(** ** Galerkin mass matrix *)
Definition galPart (areas : mdata R) (f : Z) : list (ztrip R) :=
  let a := ve m (fh m f) in let b := ve m (nx m (fh m f)) in let c := ve m (nx m (nx m (fh m f))) in let A := valAt areas f in
  [(a, a, A / 6); (a, b, A / 12); (a, c, A / 12); (b, b, A / 6); (b, c, A / 12); (b, a, A / 12); (c, c, A / 6); (c, a, A / 12); (c, b, A / 12)].
Lemma galerkin_ok areas : length (dat areas) = Z.to_nat (fCap m - bFill m) -> exists M, galerkinMass m areas = Ok M /\ rows M = Z.to_nat (nVertices m) /\ cols M = Z.to_nat (nVertices m) /\
  (forall t, In t (flat_map (galPart areas) (zl m EFace)) -> liveE m EVertex (fst (fst t)) /\ liveE m EVertex (snd (fst t))) /\
  (forall a b, liveV m a -> liveV m b -> entryAt 0 m EVertex EVertex M a b = Rsum (fun t => if ((fst (fst t) =? a) && (snd (fst t) =? b))%Z then snd t else 0) (flat_map (galPart areas) (zl m EFace))).
Proof.
  intros LA. destruct (indices_ok m V EVertex) as (vi & EI & _ & HI); [left; auto|]. destruct (els_ok m EFace V) as (E & N & _ & I). unfold galerkinMass. rewrite EI. cbn [bind]. rewrite E. cbn [bind]. rewrite forEach_map. fold (zl m EFace).
  assert (LV : forall f, liveF m f -> let h := fh m f in intH h /\ intH (nx m h) /\ intH (nx m (nx m h)) /\ liveE m EVertex (ve m h) /\ liveE m EVertex (ve m (nx m h)) /\ liveE m EVertex (ve m (nx m (nx m h)))).
  { intros f Hf h. destruct (fh_int m V f Hf) as [K0 F0]. pose proof (intH_nx m V _ K0) as K1. pose proof (intH_nx m V _ K1) as K2. cbn [liveE]. split; auto. split; auto. split; auto. split; [|split]; apply (cn_ve _ CN); [apply K0|apply K1|apply K2]. }
  assert (VO : forall h, intH h -> vertexOf m h = Ok (ve m h)) by (intros h K; rewrite vertexOf_ok by (destruct (liveH_bnd m V _ (proj1 K)) as (_ & _ & ? & _); auto); reflexivity).
  rewrite (foldM_gather _ (fun f => map (toTrip m EVertex EVertex) (galPart areas f))).
  2: { intros acc f Hf. apply zl_In in Hf; auto. destruct (LV f Hf) as (K0 & K1 & K2 & L0 & L1 & L2). rewrite (dataAt_in 0) by (rewrite LA; apply (f_cap m V); auto). cbn [bind]. rewrite fHe_ok by (apply (liveFL_bnd m V f); left; auto). change (getZ (fHalfedge m) f) with (fh m f). cbn [bind].
       rewrite VO by auto. cbn [bind]. rewrite next_live by (auto; apply K0). cbn [bind]. rewrite VO by auto. cbn [bind]. rewrite next_live by (auto; apply K1). cbn [bind]. rewrite VO by auto. cbn [bind]. rewrite next_live by (auto; apply K2). cbn [bind].
       destruct (three m V TR _ K0) as (E3 & _). rewrite E3, Z.eqb_refl. cbn [guard bind]. rewrite (proj1 (HI _ L0)), (proj1 (HI _ L1)), (proj1 (HI _ L2)). cbn [bind]. reflexivity. }
  cbn [bind app]. rewrite <- map_flat. assert (LT : forall t, In t (flat_map (galPart areas) (zl m EFace)) -> liveE m EVertex (fst (fst t)) /\ liveE m EVertex (snd (fst t))).
  { intros t It. apply in_flat_map in It as (f & Hf & It). apply zl_In in Hf; auto. destruct (LV f Hf) as (_ & _ & _ & L0 & L1 & L2). unfold galPart in It. cbn [In] in It. repeat (destruct It as [<-|It]; [cbn [fst snd]; auto|]). destruct It. }
  destruct (zsparse m V Rplus 0 (fun x => x) (fun _ _ => eq_refl) eq_refl EVertex EVertex (flat_map (galPart areas) (zl m EFace)) LT) as (M & EM & R & C & S). exists M. split; [exact EM|]. split; auto.
Qed.
Section Gal.
Context (areas : mdata R) (M : smat R).
Hypothesis (LT : forall t, In t (flat_map (galPart areas) (zl m EFace)) -> liveE m EVertex (fst (fst t)) /\ liveE m EVertex (snd (fst t))).
Hypothesis (S : forall a b, liveV m a -> liveV m b -> entryAt 0 m EVertex EVertex M a b = Rsum (fun t => if ((fst (fst t) =? a) && (snd (fst t) =? b))%Z then snd t else 0) (flat_map (galPart areas) (zl m EFace))).
Lemma gal_sym a b : liveV m a -> liveV m b -> entryAt 0 m EVertex EVertex M a b = entryAt 0 m EVertex EVertex M b a.
Proof.
  intros A B. rewrite !S by auto. rewrite !Rsum_flat_map. apply Rsum_ext. intros f Hf. unfold galPart. cbv zeta. set (x := ve m (fh m f)). set (y := ve m (nx m (fh m f))). set (z := ve m (nx m (nx m (fh m f)))). rewrite !Rsum_cons, !Rsum_nil. cbn [fst snd].
  rewrite (andb_comm (x =? b)%Z (x =? a)%Z), (andb_comm (y =? b)%Z (y =? a)%Z), (andb_comm (z =? b)%Z (z =? a)%Z), (andb_comm (x =? b)%Z (y =? a)%Z), (andb_comm (x =? b)%Z (z =? a)%Z), (andb_comm (y =? b)%Z (z =? a)%Z), (andb_comm (y =? b)%Z (x =? a)%Z), (andb_comm (z =? b)%Z (x =? a)%Z), (andb_comm (z =? b)%Z (y =? a)%Z). ring.
Qed.
Lemma gal_rows v : liveV m v -> Rsum (entryAt 0 m EVertex EVertex M v) (zl m EVertex) = Rsum (fun h => valAt areas (fa m h) / 3) (cornersAt m v).
Proof.
  intros Lv. rewrite (Rsum_ext _ (fun b => entryAt 0 m EVertex EVertex M v b * 1)) by (intros; ring). rewrite (zaction m V EVertex EVertex _ (entryAt 0 m EVertex EVertex M) (fun _ => 1) v LT S Lv). rewrite Rsum_flat_map.
  unfold cornersAt. rewrite <- (Rsum_if (fun h => (ve m h =? v)%Z)), (sum_faces m V TR). apply Rsum_ext. intros f Hf. apply zl_In in Hf; auto. destruct (fh_int m V f Hf) as [K0 F0]. pose proof (intH_nx m V _ K0) as K1. pose proof (intH_nx m V _ K1) as K2. rewrite sum_ring3.
  rewrite !(cn_fnx _ CN) by (apply K0 || apply K1). rewrite F0. unfold galPart. cbv zeta. rewrite !Rsum_cons, !Rsum_nil. cbn [fst snd]. destruct (ve m (fh m f) =? v)%Z, (ve m (nx m (fh m f)) =? v)%Z, (ve m (nx m (nx m (fh m f))) =? v)%Z; field.
Qed.
Lemma gal_form (x : Z -> R) : Rsum (fun a => x a * Rsum (fun b => entryAt 0 m EVertex EVertex M a b * x b) (zl m EVertex)) (zl m EVertex) =
  Rsum (fun f => let a := x (ve m (fh m f)) in let b := x (ve m (nx m (fh m f))) in let c := x (ve m (nx m (nx m (fh m f)))) in valAt areas f / 12 * (a * a + b * b + c * c + (a + b + c) * (a + b + c))) (zl m EFace).
Proof.
  rewrite (zquad EVertex _ _ x LT S). rewrite Rsum_flat_map. apply Rsum_ext. intros f _. cbv zeta. unfold galPart. rewrite !Rsum_cons, Rsum_nil. cbn [fst snd]. field.
Qed.
Context (PA : forall f, liveF m f -> 0 < valAt areas f).
Lemma gal_term f (x : Z -> R) : liveF m f -> let a := x (ve m (fh m f)) in let b := x (ve m (nx m (fh m f))) in let c := x (ve m (nx m (nx m (fh m f)))) in
  0 <= valAt areas f / 12 * (a * a + b * b + c * c + (a + b + c) * (a + b + c)) /\ (valAt areas f / 12 * (a * a + b * b + c * c + (a + b + c) * (a + b + c)) = 0 -> a = 0 /\ b = 0 /\ c = 0).
Proof.
  intros Lf a b c. pose proof (PA f Lf) as P. pose proof (Rle_0_sqr a) as A. pose proof (Rle_0_sqr b) as B. pose proof (Rle_0_sqr c) as C. pose proof (Rle_0_sqr (a + b + c)) as D. unfold Rsqr in *. split; [apply Rmult_le_pos; lra|].
  intros Z. apply Rmult_integral in Z as [Z|Z]; [lra|]. assert (A0 : a * a = 0) by lra. assert (B0 : b * b = 0) by lra. assert (C0 : c * c = 0) by lra. clear - A0 B0 C0.
  apply Rmult_integral in A0. apply Rmult_integral in B0. apply Rmult_integral in C0. tauto.
Qed.
Lemma gal_psd x : 0 <= Rsum (fun a => x a * Rsum (fun b => entryAt 0 m EVertex EVertex M a b * x b) (zl m EVertex)) (zl m EVertex).
Proof. rewrite gal_form. apply Rsum_nonneg. intros f Hf. apply zl_In in Hf; auto. apply gal_term; auto. Qed.
Lemma gal_def x : Rsum (fun a => x a * Rsum (fun b => entryAt 0 m EVertex EVertex M a b * x b) (zl m EVertex)) (zl m EVertex) = 0 -> (forall v, liveV m v -> cornersAt m v <> []) -> forall v, liveV m v -> x v = 0.
Proof.
  rewrite gal_form. intros Z NE v Lv. destruct (cornersAt m v) as [|h t] eqn:Q; [exfalso; apply (NE v Lv Q)|]. destruct (proj1 (proj2 (cornersAt_ok m V v) h)) as (A & B & C); [rewrite Q; left; auto|]. assert (K : intH h) by (split; auto).
  pose proof (fa_liveF m V h K) as Lf. destruct (fh_int m V _ Lf) as [K0 F]. 
  pose proof (fun G => Rsum_zero_inv _ _ G Z (fa m h) (proj2 (zl_In m V EFace _) Lf)) as Z0. cbv beta zeta in Z0. destruct (gal_term (fa m h) x Lf) as [_ G]. cbv zeta in G. destruct G as (X0 & X1 & X2).
  - apply Z0. intros f Hf. apply zl_In in Hf; auto. apply gal_term; auto.
  - assert (In h (ring3 m (fh m (fa m h)))) as I by (apply (ring3_ok m V TR _ K0); rewrite F; auto). destruct I as [I|[I|[I|[]]]]; rewrite I in *; rewrite <- C; auto.
Qed.
End Gal.
End M.
