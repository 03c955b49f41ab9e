From Coq Require Import Reals Lra Permutation.
From Verif Require Import Base DataModel DataSpec DataProofs MeshModel MeshSpec MeshBase MeshExec MeshOrbit MeshOpSpec MeshFlip MeshThms MeshSplit MeshHistorySpec MeshHistory MeshDataModel CollapseProofs CountSpec
  MatrixModel MatrixSpec MatrixProofs GeoModel IntrinsicModel IntrinsicSpec EmbeddedModel EmbeddedSpec Intrinsic1 Intrinsic2 Intrinsic3 Intrinsic4 Intrinsic5 Intrinsic7 Intrinsic8 Embedded1 Embedded2 Embedded3 PolyModel PolySpec Poly1 Poly2 Poly5 Poly6.
Open Scope R_scope.
Section M.
Context (m : mesh) (V : Valid m) (pos normals : mdata V3) (areas : mdata R) (PD : polygonData m pos normals areas).
Local Notation intH := (intH m).
Local Notation fl := (fl m).
Local Notation poly f := (map (fun h => pt pos (ve m h)) (fl f)).
Local Notation N f := (pt normals f).
Local Notation A f := (valAt areas f).
Local Notation nV := (Z.to_nat (nVertices m)).
Local Notation nF := (Z.to_nat (nFaces m)).
Definition fG (f : Z) : dense := faceGradient (A f) (N f) (poly f).
Definition gEntry (f : Z) (k : nat) (v : Z) : R := Rsum (fun j => if (vAt m f j =? v)%Z then de (fG f) k j else 0) (seq 0 (length (fl f))).
Lemma nFz : Z.to_nat (3 * nFaces m) = (3 * nF)%nat.
Proof. pose proof (els_ok m EFace V) as (_ & _ & C2 & _). cbn [nElements] in C2. lia. Qed.
Lemma vAt_live f j : liveF m f -> (j < length (fl f))%nat -> liveV m (vAt m f j).
Proof. intros L H. apply (ve_live m V). apply (fl_nth m V f j L H). Qed.
Lemma vidx f j v : liveF m f -> (j < length (fl f))%nat -> liveV m v -> (indexOf m EVertex (vAt m f j) =? indexOf m EVertex v)%nat = (vAt m f j =? v)%Z.
Proof.
  intros L H Lv. destruct (Z.eqb_spec (vAt m f j) v) as [->|X]; [apply Nat.eqb_refl|]. apply Nat.eqb_neq. intros Q. apply X. apply (index_inj m V EVertex); auto. apply vAt_live; auto.
Qed.
Lemma sel f k (g : Z -> nat -> R) : liveF m f -> (k < 3)%nat ->
  Rsum (fun f' => Rsum (fun k' => if (3 * indexOf m EFace f' + k' =? 3 * indexOf m EFace f + k)%nat then g f' k' else 0) (seq 0 3)) (zl m EFace) = g f k.
Proof.
  intros L K. rewrite (Rsum_ext _ (fun f' => if (f =? f')%Z then g f' k else 0)).
  - apply (Rsum_delta Z.eqb zE (fun f' => g f' k)); [apply zl_NoDup; auto|apply zl_In; auto].
  - intros f' Hf. apply zl_In in Hf; auto. destruct (Z.eqb_spec f f') as [<-|X].
    + etransitivity; [|apply (Rsum_at 3 k (g f k) K)]. apply Rsum_ext. intros i _. destruct (Nat.eqb_spec i k) as [->|]; [rewrite Nat.eqb_refl; auto|]. destruct (Nat.eqb_spec (3 * indexOf m EFace f + i) (3 * indexOf m EFace f + k)); [lia|auto].
    + apply Rsum_zero. intros i Hi. apply in_seq in Hi. destruct (Nat.eqb_spec (3 * indexOf m EFace f' + i) (3 * indexOf m EFace f + k)); [|auto]. exfalso. apply X. apply (index_inj m V EFace); auto. lia.
Qed.
Lemma reads {B} (k : nat -> list nat -> list V3 -> R -> V3 -> res B) vi fi f : liveF m f -> (forall e, liveE m EVertex e -> dataAt vi e = Ok (indexOf m EVertex e) /\ at_ 0%nat vi e = indexOf m EVertex e) -> (forall e, liveE m EFace e -> dataAt fi e = Ok (indexOf m EFace e) /\ at_ 0%nat fi e = indexOf m EFace e) ->
  (let* i := dataAt fi f in let* vs := faceVerts m f in let* ids := mapM (dataAt vi) vs in let* p := polygonPositions m pos f in let* a := dataAt areas f in let* n := dataAt normals f in k i ids p a n) = k (indexOf m EFace f) (map (fun h => indexOf m EVertex (ve m h)) (fl f)) (poly f) (A f) (N f) /\
  (let* i := dataAt fi f in let* a := dataAt areas f in let* vs := faceVerts m f in let* ids := mapM (dataAt vi) vs in let* p := polygonPositions m pos f in let* n := dataAt normals f in k i ids p a n) = k (indexOf m EFace f) (map (fun h => indexOf m EVertex (ve m h)) (fl f)) (poly f) (A f) (N f).
Proof.
  intros L HV HF. destruct PD as (P1 & P2 & P3 & _). assert (MV : mapM (dataAt vi) (map (ve m) (fl f)) = Ok (map (fun h => indexOf m EVertex (ve m h)) (fl f))).
  { rewrite (mapM_map _ (indexOf m EVertex)); [rewrite map_map; auto|]. intros v Hv. apply in_map_iff in Hv as (h & <- & Hh). apply (fl_ok m V f L) in Hh as [K _]. apply HV. apply (ve_live m V). auto. }
  rewrite (proj1 (HF f L)). cbn [bind]. rewrite (faceVerts_ok m V) by auto. cbn [bind]. rewrite MV. cbn [bind]. rewrite (positions_ok m V) by auto. cbn [bind]. rewrite (dataAt_in 0) by (rewrite P3; apply (f_cap m V); auto). cbn [bind]. rewrite (dataAt_in (mk3 0 0 0)) by (rewrite P2; apply (f_cap m V); auto). cbn [bind].
  split; reflexivity.
Qed.
Definition gTrips : list (nat * nat * R) := flat_map (fun f => flat_map (fun i => map (fun j => ((3 * indexOf m EFace f + i)%nat, indexOf m EVertex (vAt m f j), de (fG f) i j)) (seq 0 (length (fl f)))) (seq 0 3)) (zl m EFace).
Definition dTrips : list (nat * nat * R) := flat_map (fun f => flat_map (fun i => map (fun j => (indexOf m EVertex (vAt m f j), (3 * indexOf m EFace f + i)%nat, de (fG f) i j * A f)) (seq 0 (length (fl f)))) (seq 0 3)) (zl m EFace).
Lemma grad_ok : exists G, polygonGradient m pos normals areas = Ok G /\ rows G = (3 * nF)%nat /\ cols G = nV /\
  forall f v k, liveF m f -> liveV m v -> (k < 3)%nat -> coeff 0 G (3 * indexOf m EFace f + k) (indexOf m EVertex v) = gEntry f k v.
Proof.
  destruct (indices_ok m V EVertex) as (vi & EI & _ & HI); [left; auto|]. destruct (indices_ok m V EFace) as (fi & EF & _ & HF); [right; right; auto|]. destruct (els_ok m EFace V) as (E & _). unfold polygonGradient. rewrite EI. cbn [bind]. rewrite EF. cbn [bind]. rewrite E. cbn [bind]. rewrite forEach_map. fold (zl m EFace).
  rewrite (foldM_gather _ (fun f => flat_map (fun i => map (fun j => ((3 * indexOf m EFace f + i)%nat, indexOf m EVertex (vAt m f j), de (fG f) i j)) (seq 0 (length (fl f)))) (seq 0 3))).
  2: { intros acc f Hf. apply zl_In in Hf; auto. etransitivity; [exact (proj1 (reads (fun i ids p a n => Ok (acc ++ flat_map (fun i0 => map (fun j => ((3 * i + i0)%nat, nth j ids 0%nat, de (faceGradient a n p) i0 j)) (seq 0 (length ids))) (seq 0 3))) vi fi f Hf HI HF))|].
       f_equal. f_equal. apply flat_map_ext'. intros i Hi. rewrite map_length. apply map_ext_in. intros j Hj. apply in_seq in Hj. unfold vAt. rewrite (nth_map_lt (fun x => indexOf m EVertex (ve m x)) (fl f) _ 0%Z 0%nat) by lia. reflexivity. }
  cbn [bind app]. fold gTrips. unfold matrix. rewrite nFz.
  destruct (sparse_ok Rplus 0 (fun x => x) (fun _ _ => eq_refl) eq_refl (3 * nF) nV gTrips) as (P & EP & RP & CP & S).
  - intros t I. unfold gTrips in I. apply in_flat_map in I as (f & Hf & I). apply in_flat_map in I as (i & Hi & I). apply in_map_iff in I as (j & <- & Hj). apply in_seq in Hi, Hj. apply zl_In in Hf; auto. cbn [fst snd]. pose proof (index_lt m V EFace f Hf). assert (LV : liveV m (vAt m f j)) by (apply vAt_live; [exact Hf|lia]). pose proof (index_lt m V EVertex _ LV). cbn [nElements] in *. lia.
  - exists P. split; [exact EP|]. split; auto. split; auto. intros f v k Lf Lv K. pose proof (index_lt m V EFace f Lf). pose proof (index_lt m V EVertex v Lv). cbn [nElements] in *. rewrite S by lia. rewrite <- Rsum_if. unfold gTrips. rewrite Rsum_flat_map. etransitivity; [|exact (sel f k (fun f' k' => gEntry f' k' v) Lf K)].
    apply Rsum_ext. intros f' Hf. apply zl_In in Hf; auto. rewrite Rsum_flat_map. apply Rsum_ext. intros i _. rewrite Rsum_map. unfold hits. cbn [fst snd]. destruct (3 * indexOf m EFace f' + i =? 3 * indexOf m EFace f + k)%nat; cbn [andb]; [|apply Rsum_zero; auto].
    apply Rsum_ext. intros j Hj. apply in_seq in Hj. rewrite vidx by (auto; lia). reflexivity.
Qed.
Lemma div_ok : exists G, polygonDivergence m pos normals areas = Ok G /\ rows G = nV /\ cols G = (3 * nF)%nat /\
  forall f v k, liveF m f -> liveV m v -> (k < 3)%nat -> coeff 0 G (indexOf m EVertex v) (3 * indexOf m EFace f + k) = gEntry f k v * A f.
Proof.
  destruct (indices_ok m V EVertex) as (vi & EI & _ & HI); [left; auto|]. destruct (indices_ok m V EFace) as (fi & EF & _ & HF); [right; right; auto|]. destruct (els_ok m EFace V) as (E & _). unfold polygonDivergence. rewrite EI. cbn [bind]. rewrite EF. cbn [bind]. rewrite E. cbn [bind]. rewrite forEach_map. fold (zl m EFace).
  rewrite (foldM_gather _ (fun f => flat_map (fun i => map (fun j => (indexOf m EVertex (vAt m f j), (3 * indexOf m EFace f + i)%nat, de (fG f) i j * A f)) (seq 0 (length (fl f)))) (seq 0 3))).
  2: { intros acc f Hf. apply zl_In in Hf; auto. etransitivity; [exact (proj2 (reads (fun i ids p a n => Ok (acc ++ flat_map (fun i0 => map (fun j => (nth j ids 0%nat, (3 * i + i0)%nat, de (faceGradient a n p) i0 j * a)) (seq 0 (length ids))) (seq 0 3))) vi fi f Hf HI HF))|].
       f_equal. f_equal. apply flat_map_ext'. intros i Hi. rewrite map_length. apply map_ext_in. intros j Hj. apply in_seq in Hj. unfold vAt. rewrite (nth_map_lt (fun x => indexOf m EVertex (ve m x)) (fl f) _ 0%Z 0%nat) by lia. reflexivity. }
  cbn [bind app]. fold dTrips. unfold matrix. rewrite nFz.
  destruct (sparse_ok Rplus 0 (fun x => x) (fun _ _ => eq_refl) eq_refl nV (3 * nF) dTrips) as (P & EP & RP & CP & S).
  - intros t I. unfold dTrips in I. apply in_flat_map in I as (f & Hf & I). apply in_flat_map in I as (i & Hi & I). apply in_map_iff in I as (j & <- & Hj). apply in_seq in Hi, Hj. apply zl_In in Hf; auto. cbn [fst snd]. pose proof (index_lt m V EFace f Hf). assert (LV : liveV m (vAt m f j)) by (apply vAt_live; [exact Hf|lia]). pose proof (index_lt m V EVertex _ LV). cbn [nElements] in *. lia.
  - exists P. split; [exact EP|]. split; auto. split; auto. intros f v k Lf Lv K. pose proof (index_lt m V EFace f Lf). pose proof (index_lt m V EVertex v Lv). cbn [nElements] in *. rewrite S by lia. rewrite <- Rsum_if. unfold dTrips. rewrite Rsum_flat_map. etransitivity; [|exact (sel f k (fun f' k' => gEntry f' k' v * A f') Lf K)].
    apply Rsum_ext. intros f' Hf. apply zl_In in Hf; auto. rewrite Rsum_flat_map. apply Rsum_ext. intros i _. rewrite Rsum_map. unfold hits. cbn [fst snd]. destruct (3 * indexOf m EFace f' + i =? 3 * indexOf m EFace f + k)%nat; cbn [andb]; [|apply Rsum_zero; intros; rewrite andb_false_r; auto].
    unfold gEntry. rewrite Rmult_comm, <- Rsum_scal. apply Rsum_ext. intros j Hj. apply in_seq in Hj. rewrite vidx by (auto; lia). rewrite andb_true_r. destruct (vAt m f' j =? v)%Z; ring.
Qed.
Lemma gEntry_sum f k u : liveF m f -> (k < 3)%nat -> Rsum (fun v => gEntry f k v * u v) (zl m EVertex) = - comp (meanGradient m pos normals areas u f) k.
Proof.
  intros L K. unfold gEntry. rewrite (Rsum_ext _ (fun v => Rsum (fun j => (if (vAt m f j =? v)%Z then de (fG f) k j * u v else 0)) (seq 0 (length (fl f))))).
  2: { intros v _. rewrite Rmult_comm, <- Rsum_scal. apply Rsum_ext. intros j _. destruct (vAt m f j =? v)%Z; ring. }
  rewrite Rsum_swap. transitivity (app_ (fG f) (fun i => u (vAt m f i)) k).
  - unfold app_, fG. rewrite grad_size, map_length. apply Rsum_ext. intros j Hj. apply in_seq in Hj. apply (Rsum_delta Z.eqb zE (fun v => de (fG f) k j * u v)); [apply zl_NoDup; auto|apply zl_In; auto; apply vAt_live; [auto|lia]].
  - unfold fG. rewrite grad_app; [|rewrite map_length; apply (fl_two m V pos normals areas PD f L)|auto]. rewrite (coG_sum m V pos f u L). rewrite (MG_eq m V pos normals areas f u L). destruct k as [|[|k]]; cbn [comp mul3 qx qy qz]; ring.
Qed.
Lemma vector_ok G : (forall f v k, liveF m f -> liveV m v -> (k < 3)%nat -> coeff 0 G (3 * indexOf m EFace f + k) (indexOf m EVertex v) = gEntry f k v) ->
  forall u f, liveF m f -> vectorAt m G u f = mul3 (meanGradient m pos normals areas u f) (-1).
Proof.
  intros H u f L. assert (E : forall k, (k < 3)%nat -> Rsum (fun v => coeff 0 G (3 * indexOf m EFace f + k) (indexOf m EVertex v) * u v) (every m EVertex) = - comp (meanGradient m pos normals areas u f) k).
  { intros k K. rewrite <- gEntry_sum by auto. change (every m EVertex) with (zl m EVertex). apply Rsum_ext. intros v Hv. apply zl_In in Hv; auto. rewrite H by auto. reflexivity. }
  unfold vectorAt. rewrite !E by lia. apply V3_eq; cbn; ring.
Qed.
End M.
