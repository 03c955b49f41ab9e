From Coq Require Import Reals Lra Permutation.
From Verif Require Import Base DataModel DataSpec DataProofs MeshModel MeshSpec MeshBase MeshExec MeshOrbit MeshOpSpec MeshFlip MeshThms MeshSplit MeshHistorySpec MeshHistory MeshDataModel CollapseProofs CountSpec
  MatrixModel MatrixSpec MatrixProofs GeoModel IntrinsicModel IntrinsicSpec Intrinsic1 Intrinsic2 Intrinsic3 Intrinsic4.
Open Scope R_scope.

(** ** setFromTriplets with repeated positions *)
Section Sparse.
Context {T : Type} (add : T -> T -> T) (zero : T) (phi : T -> R) (Hadd : forall a b, phi (add a b) = phi a + phi b) (Hz : phi zero = 0).
Definition hits (i j : nat) (t : nat * nat * T) : bool := ((fst (fst t) =? i) && (snd (fst t) =? j))%nat.
Lemma fold_add vs : forall v, phi (fold_left add vs v) = phi v + Rsum phi vs.
Proof. induction vs as [|a t IH]; intros v; cbn [fold_left]; [rewrite Rsum_nil; lra|]. rewrite IH, Hadd, Rsum_cons. lra. Qed.
Lemma find_app {A} (p : A -> bool) a b : find p (a ++ b) = match find p a with Some x => Some x | None => find p b end.
Proof. induction a as [|x a IH]; cbn; auto. destruct (p x); auto. Qed.
Lemma find_none (G : nat -> list (nat * T)) i l : (forall k, G k = [] \/ exists v, G k = [(k, v)]) -> ~ In i l -> find (fun p => (fst p =? i)%nat) (concat (map G l)) = None.
Proof.
  intros HG. induction l as [|k t IH]; intros I; cbn [map concat]; auto. rewrite find_app. cbn [In] in I.
  destruct (HG k) as [E|(v & E)]; rewrite E; cbn; [|rewrite (proj2 (Nat.eqb_neq k i)) by auto]; apply IH; auto.
Qed.
Lemma find_column (G : nat -> list (nat * T)) i l : (forall k, G k = [] \/ exists v, G k = [(k, v)]) -> NoDup l -> In i l -> find (fun p => (fst p =? i)%nat) (concat (map G l)) = match G i with p :: _ => Some p | [] => None end.
Proof.
  intros HG. induction l as [|k t IH]; intros N I; [contradiction|]. inversion N as [|? ? N1 N2]; subst. cbn [map concat].
  rewrite find_app. destruct (Nat.eq_dec k i) as [->|K].
  - destruct (HG i) as [E|(v & E)]; rewrite E; cbn; [|rewrite Nat.eqb_refl; auto]. apply find_none; auto.
  - destruct I as [->|I]; [congruence|]. destruct (HG k) as [E|(v & E)]; rewrite E; cbn; [|rewrite (proj2 (Nat.eqb_neq k i)) by auto]; apply IH; auto.
Qed.
Lemma sparse_ok r c trips : (forall t, In t trips -> (fst (fst t) < r)%nat /\ (snd (fst t) < c)%nat) ->
  exists M, fromTriplets add r c trips = Ok M /\ rows M = r /\ cols M = c /\
    (forall i j, (i < r)%nat -> (j < c)%nat -> phi (coeff zero M i j) = Rsum (fun t => phi (snd t)) (filter (hits i j) trips)).
Proof.
  intros H. unfold fromTriplets. rewrite (proj2 (forallb_forall _ _)). 2: { intros t I. destruct (H t I). rewrite andb_true_iff, !Nat.ltb_lt. auto. }
  eexists. split; [reflexivity|]. split; [reflexivity|]. split; [reflexivity|]. intros i j Hi Hj. unfold coeff, entry. cbn [columns].
  rewrite (nth_error_nth _ _ _ (x := concat (map (fun i => match valuesAt trips i j with [] => [] | v :: vs => [(i, fold_left add vs v)] end) (seq 0 r)))).
  2: { rewrite nth_error_map_seq. destruct (Nat.ltb_spec j c); [reflexivity|lia]. }
  rewrite find_column; [| |apply seq_NoDup|apply in_seq; lia].
  2: { intros k. destruct (valuesAt trips k j) as [|v vs]; eauto. }
  unfold valuesAt. change (fun t : nat * nat * T => ((fst (fst t) =? i) && (snd (fst t) =? j))%nat) with (hits i j).
  rewrite <- (Rsum_map (@snd (nat * nat) T) phi). destruct (map snd (filter (hits i j) trips)) as [|v vs]; cbn [option_map snd].
  - rewrite Rsum_nil. auto.
  - rewrite fold_add, Rsum_cons. reflexivity.
Qed.
End Sparse.

(** ** loops *)
Lemma fill_if_ok {T} (d0 : T) (body : mdata T -> Z -> res (mdata T)) (p : Z -> bool) (val : Z -> T) n l : forall d, length (dat d) = n -> NoDup l -> (forall e, In e l -> (0 <= e < Z.of_nat n)%Z) ->
  (forall d e, length (dat d) = n -> In e l -> body d e = if p e then setAt d e (val e) else Ok d) ->
  exists d', foldM body l d = Ok d' /\ length (dat d') = n /\ (forall i, (0 <= i)%Z -> at_ d0 d' i = if existsb (fun e => (e =? i)%Z && p e) l then val i else at_ d0 d i).
Proof.
  induction l as [|e t IH]; intros d Ld N B H.
  - exists d. split; [reflexivity|]. split; auto.
  - inversion N as [|? ? N1 N2]; subst. cbn [foldM]. rewrite H by (auto; left; auto).
    assert (NE : existsb (fun x => (x =? e)%Z && p x) t = false).
    { destruct (existsb _ t) eqn:Q; auto. apply existsb_exists in Q as (x & Hx & Q). rewrite andb_true_iff, Z.eqb_eq in Q. destruct Q as [-> _]. contradiction. }
    destruct (p e) eqn:P.
    + destruct (setAt_in d0 d e (val e)) as (d1 & S1 & L1 & V1); [apply B; left; auto|]. rewrite S1. cbn [bind].
      destruct (IH d1 L1 N2 (fun x K => B x (or_intror K)) (fun d x Q K => H d x Q (or_intror K))) as (d2 & S2 & L2 & V2). exists d2. split; [exact S2|]. split; auto.
      intros i Hi. rewrite V2, V1 by auto. cbn [existsb]. rewrite P. destruct (Z.eqb_spec e i) as [->|Q]; cbn; auto. destruct (existsb _ t); auto.
    + destruct (IH d eq_refl N2 (fun x K => B x (or_intror K)) (fun d x Q K => H d x Q (or_intror K))) as (d2 & S2 & L2 & V2). cbn [bind]. exists d2. split; [exact S2|]. split; auto.
      intros i Hi. rewrite V2 by auto. cbn [existsb]. rewrite P, andb_false_r. reflexivity.
Qed.
Lemma existsb_at (p : Z -> bool) l i : existsb (fun e => (e =? i)%Z && p e) l = true <-> In i l /\ p i = true.
Proof.
  rewrite existsb_exists. split; [intros (x & Hx & Q); rewrite andb_true_iff, Z.eqb_eq in Q; destruct Q as [-> Q]; auto|intros [A B]]. exists i. rewrite Z.eqb_refl, B. auto.
Qed.
Lemma foldM_nested {A B S} (inner : A -> S -> B -> res S) (parts : A -> list B) (body : S -> A -> res S) l : (forall s a, In a l -> body s a = foldM (inner a) (parts a) s) ->
  forall s, foldM body l s = foldM (fun s p => inner (fst p) s (snd p)) (flat_map (fun a => map (pair a) (parts a)) l) s.
Proof.
  intros H. induction l as [|a t IH]; intros s; cbn [foldM flat_map]; auto. rewrite H by (left; auto). rewrite foldM_app.
  assert (E : forall q s, foldM (fun s p => inner (fst p) s (snd p)) (map (pair a) q) s = foldM (inner a) q s).
  { induction q as [|b q IHq]; intros s'; cbn; auto. destruct (inner a s' b); cbn; auto. }
  rewrite E. destruct (foldM (inner a) (parts a) s); cbn [bind]; auto. apply IH. intros s' x Hx. apply H. right; auto.
Qed.
Lemma Rsum_flat {A B} (parts : A -> list B) (g : A * B -> R) l : Rsum g (flat_map (fun a => map (pair a) (parts a)) l) = Rsum (fun a => Rsum (fun b => g (a, b)) (parts a)) l.
Proof. induction l as [|a t IH]; cbn [flat_map]; auto. rewrite Rsum_app, Rsum_cons, Rsum_map, IH. reflexivity. Qed.
Lemma foldM_sum {A} (f : A -> res R) (val : A -> R) (op : R -> R -> R) l : (forall a, In a l -> f a = Ok (val a)) -> forall s, foldM (fun s a => let* x := f a in Ok (op s x)) l s = Ok (fold_left op (map val l) s).
Proof. induction l as [|a t IH]; intros H s; cbn [foldM map fold_left]; auto. rewrite H by (left; auto). cbn [bind]. apply IH. intros; apply H; right; auto. Qed.
Lemma fold_plus l : forall s, fold_left Rplus l s = s + Rsum (fun x => x) l.
Proof. induction l as [|a t IH]; intros s; cbn [fold_left]; [rewrite Rsum_nil; lra|]. rewrite IH, Rsum_cons. lra. Qed.
Lemma fold_minus l : forall s, fold_left Rminus l s = s - Rsum (fun x => x) l.
Proof. induction l as [|a t IH]; intros s; cbn [fold_left]; [rewrite Rsum_nil; lra|]. rewrite IH, Rsum_cons. lra. Qed.

Section M.
Context (m : mesh) (V : Valid m) (TR : triangular m).
Let CN := va_cn m V.
Local Notation intH := (intH m).
Lemma interior_filter hs : (forall h, In h hs -> liveH m h) -> interiorOf m hs = Ok (filter (fun h => negb (extb m h)) hs).
Proof.
  intros H. unfold interiorOf.
  assert (G : forall l acc, (forall h, In h l -> liveH m h) -> foldM (fun l h => let* b := isInterior m h in Ok (if b then l ++ [h] else l)) l acc = Ok (acc ++ filter (fun h => negb (extb m h)) l)).
  { induction l as [|h t IH]; intros acc K; cbn [foldM filter]; [rewrite app_nil_r; auto|]. rewrite isInterior_ok by (auto; apply K; left; auto). cbn [bind]. rewrite IH by (intros; apply K; right; auto). unfold extb.
    destruct (fFill m <=? fa m h)%Z; cbn [negb]; auto. rewrite <- app_assoc. reflexivity. }
  rewrite G by auto. reflexivity.
Qed.
Lemma corners_circulated v : liveV m v -> exists hs hs', vertHalfedges m v = Ok hs /\ interiorOf m hs = Ok hs' /\ cornersOf m v hs'.
Proof.
  intros Lv. destruct (vertHalfedges_ok m V v Lv) as (hs & E & _ & _ & N & I). exists hs, (filter (fun h => negb (extb m h)) hs). split; auto. split; [apply interior_filter; intros h Hh; apply I; auto|].
  split; [apply filter_NoDup; auto|]. intros h. rewrite filter_In, I, negb_true_iff. pose proof (extb_spec m h) as X. destruct (extb m h); intuition congruence.
Qed.
Lemma cornersOf_sum (g : Z -> R) v l : cornersOf m v l -> Rsum g l = Rsum g (cornersAt m v).
Proof. intros [N I]. destruct (cornersAt_ok m V v) as [N2 I2]. apply Rsum_set; auto. intros a. rewrite I, I2. tauto. Qed.
Lemma ring3_face f : liveF m f -> faceHalfedges m f = Ok (ring3 m (fh m f)).
Proof.
  intros K. destruct (fh_int m V f K) as [K0 F]. destruct (three m V TR _ K0) as (E & N1 & N2 & N3). pose proof (intH_nx m V _ K0) as K1. pose proof (intH_nx m V _ K1) as K2.
  unfold faceHalfedges. rewrite fHe_ok by (apply (liveFL_bnd m V f); left; auto). cbn [bind]. apply orbit_loop_chain with (nx m).
  - discriminate.
  - unfold ring3. cbn [chain]. auto.
  - unfold ring3. cbn [tl In]. intuition congruence.
  - intros x [<-|[<-|[<-|[]]]]; apply next_live; auto; [apply K0|apply K1|apply K2].
  - pose proof (loopFuel_big m V). destruct K0 as [[B0 _] _], K1 as [[B1 _] _], K2 as [[B2 _] _]. unfold ring3. cbn [length]. lia.
Qed.
(** dual areas *)
Lemma dual_ok areas : length (dat areas) = Z.to_nat (fCap m - bFill m) -> exists d, vertexDualAreas m areas = Ok d /\ length (dat d) = Z.to_nat (vCap m) /\
  forall v, liveV m v -> valAt d v = Rsum (fun h => valAt areas (fa m h) / 3) (cornersAt m v).
Proof.
  intros LA. destruct (els_ok m EFace V) as (E & N & _ & I). destruct (newData_R m EVertex 0 0) as [NL _]. unfold vertexDualAreas. rewrite E. cbn [bind]. rewrite forEach_map. fold (zl m EFace).
  rewrite (foldM_nested (fun f d h => let* v := vertexOf m h in addAt d v (valAt areas f / 3)) (fun f => ring3 m (fh m f))).
  2: { intros d f Hf. apply zl_In in Hf; auto. cbn in Hf. rewrite (dataAt_in 0) by (rewrite LA; apply (f_cap m V); auto). cbn [bind]. rewrite ring3_face by auto. reflexivity. }
  set (ps := flat_map _ _).
  assert (PS : forall p, In p ps -> intH (snd p) /\ fa m (snd p) = fst p).
  { intros [f h] Hp. apply in_flat_map in Hp as (f' & Hf & Hp). apply in_map_iff in Hp as (h' & Q & Hh). injection Q as -> ->. cbn. apply zl_In in Hf; auto. destruct (fh_int m V f Hf) as [K0 F].
    apply (ring3_ok m V TR _ K0) in Hh as [A B]. rewrite F in B. auto. }
  destruct (acc_ok (fun (d : mdata R) (p : Z * Z) => let* v := vertexOf m (snd p) in addAt d v (valAt areas (fst p) / 3)) (fun p => ve m (snd p)) (fun p => valAt areas (fst p) / 3) ps (Z.to_nat (vCap m))) with (d := newData m EVertex 0) as (d & F & Ld & Vd); auto.
  - intros p Hp. apply (v_cap m V). apply CN. apply (PS p Hp).
  - intros d p _ Hp. destruct (PS p Hp) as [K _]. rewrite vertexOf_ok by (destruct (liveH_bnd m V _ (proj1 K)) as (_ & _ & ? & _); auto). reflexivity.
  - exists d. split; [exact F|]. split; auto. intros v Lv. rewrite Vd by (destruct Lv; lia). rewrite valAt_new. rewrite <- (Rsum_if (fun p : Z * Z => (ve m (snd p) =? v)%Z)). unfold ps. rewrite Rsum_flat. cbn [fst snd].
    unfold cornersAt. rewrite <- (Rsum_if (fun h => (ve m h =? v)%Z)). rewrite (sum_faces m V TR). rewrite Rplus_0_l. apply Rsum_ext. intros f Hf. apply zl_In in Hf; auto. destruct (fh_int m V f Hf) as [K0 F0]. apply Rsum_ext.
    intros h Hh. apply (ring3_ok m V TR _ K0) in Hh as [A B]. rewrite B, F0. reflexivity.
Qed.
(** curvature *)
Lemma gauss_ok sums : length (dat sums) = Z.to_nat (vCap m) -> exists d, vertexGaussianCurvatures m sums = Ok d /\ length (dat d) = Z.to_nat (vCap m) /\
  forall v, liveV m v -> valAt d v = if bdb m v then 0 else 2 * PI - valAt sums v.
Proof.
  intros LS. destruct (els_ok m EVertex V) as (E & N & _ & I). destruct (newData_R m EVertex 0 0) as [NL _]. unfold vertexGaussianCurvatures. rewrite E. cbn [bind]. rewrite forEach_map. fold (zl m EVertex).
  destruct (fill_if_ok 0 (fun d v => let* b := vIsBoundary m v in if negb b then let* t := dataAt sums v in setAt d v (2 * PI - t) else Ok d) (fun v => negb (bdb m v)) (fun v => 2 * PI - valAt sums v) (Z.to_nat (vCap m)) (zl m EVertex) (newData m EVertex 0)) as (d & F & Ld & Vd); auto using zl_NoDup.
  - intros v Hv. apply zl_In in Hv; auto. apply (v_cap m V). auto.
  - intros d v _ Hv. apply zl_In in Hv; auto. cbn in Hv. rewrite (vIsB m V) by auto. cbn [bind]. rewrite (dataAt_in 0) by (rewrite LS; apply (v_cap m V); auto). reflexivity.
  - exists d. split; [exact F|]. split; auto. intros v Lv. unfold valAt. rewrite Vd by (destruct Lv; lia). pose proof (existsb_at (fun v => negb (bdb m v)) (zl m EVertex) v) as X. rewrite zl_In, negb_true_iff in X by auto. cbn in X.
    fold (valAt (newData m EVertex 0) v). rewrite valAt_new. destruct (existsb _ _), (bdb m v); intuition congruence.
Qed.
Lemma faceGauss_ok scaled : length (dat scaled) = Z.to_nat (heCap m) -> exists d, faceGaussianCurvatures m scaled = Ok d /\ length (dat d) = Z.to_nat (fCap m - bFill m) /\
  forall f, liveF m f -> valAt d f = Rsum (valAt scaled) (ring3 m (fh m f)) - PI.
Proof.
  intros LS. destruct (els_ok m EFace V) as (E & N & _ & I). destruct (newData_R m EFace 0 0) as [NL _]. unfold faceGaussianCurvatures. rewrite E. cbn [bind]. rewrite forEach_map. fold (zl m EFace).
  match goal with |- exists d, foldM ?b _ _ = _ /\ _ => destruct (fill_if_ok 0 b (fun _ => true) (fun f => Rsum (valAt scaled) (ring3 m (fh m f)) - PI) (Z.to_nat (fCap m - bFill m)) (zl m EFace) (newData m EFace 0)) as (d & F & Ld & Vd); auto using zl_NoDup end.
  - intros f Hf. apply zl_In in Hf; auto. apply (f_cap m V). auto.
  - intros d f _ Hf. apply zl_In in Hf; auto. cbn in Hf. destruct (fh_int m V f Hf) as [K0 F0]. destruct (three m V TR _ K0) as (E3 & _). pose proof (intH_nx m V _ K0) as K1. pose proof (intH_nx m V _ K1) as K2.
    rewrite fHe_ok by (apply (liveFL_bnd m V f); left; auto). cbn [bind]. change (getZ (fHalfedge m) f) with (fh m f). cbn [seq foldM].
    rewrite (dataAt_in 0) by (rewrite LS; apply (he_cap m V); apply K0). cbn [bind]. rewrite next_live by (auto; apply K0). cbn [bind].
    rewrite (dataAt_in 0) by (rewrite LS; apply (he_cap m V); apply K1). cbn [bind]. rewrite next_live by (auto; apply K1). cbn [bind].
    rewrite (dataAt_in 0) by (rewrite LS; apply (he_cap m V); apply K2). cbn [bind]. rewrite next_live by (auto; apply K2). cbn [bind]. rewrite E3, Z.eqb_refl. cbn [guard bind]. f_equal. rewrite sum_ring3. unfold valAt. lra.
  - exists d. split; [exact F|]. split; auto. intros f Lf. unfold valAt at 1. rewrite Vd by (destruct Lf; lia). pose proof (existsb_at (fun _ => true) (zl m EFace) f) as X. rewrite zl_In in X by auto. cbn in X.
    destruct (existsb _ _); auto. destruct X as [_ X]. discriminate X. auto.
Qed.
End M.
