From Coq Require Import Reals Lra Permutation.
From Verif Require Import Base DataModel DataSpec DataProofs MeshModel MeshSpec MeshBase MeshExec MeshOrbit MeshOpSpec MeshFlip MeshThms MeshSplit MeshHistorySpec MeshHistory MeshDataModel CollapseProofs CountSpec
  MatrixModel MatrixSpec MatrixProofs GeoModel IntrinsicModel IntrinsicSpec EmbeddedModel EmbeddedSpec Intrinsic1 Intrinsic2 Intrinsic3 Intrinsic4 Intrinsic5 Intrinsic7 PolyModel PolySpec Poly1 Poly2 Poly3.
Open Scope R_scope.
Section M.
Context (m : mesh) (V : Valid m) (wts : mdata (list R)) (wt : Z -> R) (CW : cornerWeights m wts wt).
Local Notation fl := (fl m).
Local Notation nV := (Z.to_nat (nVertices m)).
Local Notation nF := (Z.to_nat (nFaces m)).
Definition proTrips : list (nat * nat * R) := map (fun i => (i, i, 1)) (seq 0 nV) ++ flat_map (fun f => map (fun h => ((nV + indexOf m EFace f)%nat, indexOf m EVertex (ve m h), wt h)) (fl f)) (zl m EFace).
Lemma index_split pre f t : zl m EFace = pre ++ f :: t -> indexOf m EFace f = length pre.
Proof.
  intros E. rewrite index_els by auto. assert (L : liveE m EFace f) by (apply zl_In; auto; rewrite E; apply in_or_app; right; left; auto). apply place_at; [apply els_ok; auto|].
  assert (Q : nth_error (zl m EFace) (length pre) = Some f) by (rewrite E, nth_error_app2, Nat.sub_diag by lia; reflexivity). unfold zl in Q. rewrite nth_error_map in Q. destruct (nth_error (els m EFace) (length pre)) as [x|]; [|discriminate]. cbn in Q. injection Q as <-. rewrite Nat2Z.id. reflexivity.
Qed.
Lemma inner_fold vi j (w : list R) (idx : Z -> nat) : forall vs l i, (forall v, In v vs -> dataAt vi v = Ok (idx v)) -> (i + length vs <= length w)%nat ->
  foldM (fun (s : list (nat * nat * R) * nat) v => let '(l, i) := s in let* k := dataAt vi v in let* x := rd w i in Ok (l ++ [((nV + j)%nat, k, x)], S i)) vs (l, i) =
  Ok (l ++ map (fun p => ((nV + j)%nat, idx (fst p), snd p)) (combine vs (skipn i w)), (i + length vs)%nat).
Proof.
  induction vs as [|v t IH]; intros l i H B; cbn [foldM combine map length]; [rewrite app_nil_r, Nat.add_0_r; auto|]. cbn [length] in B. rewrite H by (left; auto). cbn [bind].
  destruct (nth_error w i) as [x|] eqn:E; [|apply nth_error_None in E; lia]. unfold rd at 1. rewrite E. cbn [bind]. rewrite IH; [|intros; apply H; right; auto|lia].
  assert (SK : skipn i w = x :: skipn (S i) w). { clear - E. revert i E. induction w as [|a u IHw]; intros [|i] E; cbn in *; try discriminate; [injection E as ->; auto|]. rewrite (IHw i E). reflexivity. }
  rewrite SK. cbn [combine map fst snd]. rewrite <- app_assoc. cbn [app]. f_equal. f_equal. lia.
Qed.
Lemma pro_ok : exists P, simplePolygonProlongation m wts = Ok P /\ rows P = (nV + nF)%nat /\ cols P = nV /\
  (forall v w, liveV m v -> liveV m w -> coeff 0 P (indexOf m EVertex v) (indexOf m EVertex w) = if (v =? w)%Z then 1 else 0) /\
  (forall f w, liveF m f -> liveV m w -> coeff 0 P (nV + indexOf m EFace f) (indexOf m EVertex w) = faceSum m (fun h => if (ve m h =? w)%Z then wt h else 0) f).
Proof.
  destruct (indices_ok m V EVertex) as (vi & EI & _ & HI); [left; auto|]. destruct (els_ok m EFace V) as (E & _). unfold simplePolygonProlongation. rewrite EI. cbn [bind]. rewrite E. cbn [bind]. rewrite forEach_map. fold (zl m EFace).
  set (body := fun (s : list (nat * nat * R) * nat) (f : Z) => _).
  assert (G : forall t pre l, zl m EFace = pre ++ t -> foldM body t (l, length pre) = Ok (l ++ flat_map (fun f => map (fun h => ((nV + indexOf m EFace f)%nat, indexOf m EVertex (ve m h), wt h)) (fl f)) t, (length pre + length t)%nat)).
  { induction t as [|f t IH]; intros pre l Q; cbn [foldM flat_map length]; [rewrite app_nil_r, Nat.add_0_r; auto|].
    assert (L : liveF m f) by (apply (zl_In m V EFace); rewrite Q; apply in_or_app; right; left; auto). unfold body at 1. rewrite (wts_ok m V wts wt CW) by auto. cbn [bind]. rewrite (faceVerts_ok m V) by auto. cbn [bind].
    rewrite (inner_fold vi (length pre) (map wt (fl f)) (indexOf m EVertex)); [| |rewrite !map_length; lia].
    2: { intros v Hv. apply in_map_iff in Hv as (h & <- & Hh). apply (fl_ok m V f L) in Hh as [K _]. apply HI. apply (ve_live m V). auto. }
    cbn [bind]. replace (S (length pre)) with (length (pre ++ [f])) by (rewrite app_length; cbn; lia). rewrite IH by (rewrite <- app_assoc; exact Q). f_equal. f_equal; [|rewrite app_length; cbn; lia].
    rewrite <- app_assoc. f_equal. f_equal. rewrite (index_split pre f t Q). cbn [skipn]. clear. induction (fl f) as [|h u IHu]; [reflexivity|]. cbn [map combine fst snd]. f_equal. auto. }
  rewrite (G (zl m EFace) [] _ eq_refl). clear G. cbn [bind]. fold proTrips. unfold matrix. assert (VN : (0 <= nVertices m)%Z /\ (0 <= nFaces m)%Z).
  { pose proof (els_ok m EVertex V) as (_ & _ & C1 & _). pose proof (els_ok m EFace V) as (_ & _ & C2 & _). cbn [nElements] in C1, C2. lia. }
  rewrite Z2Nat.inj_add by lia.
  destruct (sparse_ok Rplus 0 (fun x => x) (fun _ _ => eq_refl) eq_refl (nV + nF) nV proTrips) as (P & EP & RP & CP & S).
  - intros t I. unfold proTrips in I. apply in_app_or in I as [I|I].
    + apply in_map_iff in I as (i & <- & Hi). apply in_seq in Hi. cbn. lia.
    + apply in_flat_map in I as (f & Hf & I). apply in_map_iff in I as (h & <- & Hh). apply zl_In in Hf; auto. apply (fl_ok m V f Hf) in Hh as [K _]. cbn [fst snd]. pose proof (index_lt m V EFace f Hf). pose proof (index_lt m V EVertex (ve m h) (ve_live m V h K)). cbn [nElements] in *. lia.
  - exists P. split; [exact EP|]. split; auto. split; auto. split.
    + intros v w Lv Lw. pose proof (index_lt m V EVertex v Lv) as Bv. pose proof (index_lt m V EVertex w Lw) as Bw. cbn [nElements] in *. rewrite S by lia. unfold proTrips. rewrite filter_app, Rsum_app, <- !Rsum_if. rewrite Rsum_map. cbn [fst snd].
      rewrite (Rsum_zero _ (flat_map _ _)). 2: { intros t I. apply in_flat_map in I as (f & Hf & I). apply in_map_iff in I as (h & <- & Hh). unfold hits. cbn [fst snd]. destruct (Nat.eqb_spec (nV + indexOf m EFace f) (indexOf m EVertex v)); [lia|reflexivity]. }
      rewrite Rplus_0_r. unfold hits. cbn [fst snd]. destruct (Z.eqb_spec v w) as [<-|N].
      * etransitivity; [|apply (Rsum_at nV (indexOf m EVertex v) 1 Bv)]. apply Rsum_ext. intros i _. destruct (i =? indexOf m EVertex v)%nat; reflexivity.
      * apply Rsum_zero. intros i _. destruct (Nat.eqb_spec i (indexOf m EVertex v)) as [->|]; [|reflexivity]. destruct (Nat.eqb_spec (indexOf m EVertex v) (indexOf m EVertex w)) as [Q|]; [|reflexivity]. exfalso. apply N. apply (index_inj m V EVertex); auto.
    + intros f w Lf Lw. pose proof (index_lt m V EFace f Lf) as Bf. pose proof (index_lt m V EVertex w Lw) as Bw. cbn [nElements] in *. rewrite S by lia. unfold proTrips. rewrite filter_app, Rsum_app, <- !Rsum_if. rewrite Rsum_map.
      rewrite (Rsum_zero _ (seq 0 nV)). 2: { intros i Hi. apply in_seq in Hi. unfold hits. cbn [fst snd]. destruct (Nat.eqb_spec i (nV + indexOf m EFace f)); [lia|reflexivity]. }
      rewrite Rplus_0_l, Rsum_flat_map. rewrite (sum_face m V) by auto. rewrite (Rsum_ext _ (fun g => if (f =? g)%Z then Rsum (fun h => if (ve m h =? w)%Z then wt h else 0) (fl g) else 0)).
      * apply (Rsum_delta Z.eqb zE (fun g => Rsum (fun h => if (ve m h =? w)%Z then wt h else 0) (fl g))); [apply zl_NoDup; auto|apply zl_In; auto].
      * intros g Hg. apply zl_In in Hg; auto. rewrite Rsum_map. unfold hits. cbn [fst snd]. destruct (Z.eqb_spec f g) as [<-|N].
        -- apply Rsum_ext. intros h Hh. apply (fl_ok m V f Lf) in Hh as [K _]. rewrite Nat.eqb_refl. cbn [andb]. destruct (Z.eqb_spec (ve m h) w) as [->|N]; [rewrite Nat.eqb_refl; auto|]. destruct (Nat.eqb_spec (indexOf m EVertex (ve m h)) (indexOf m EVertex w)) as [Q|]; auto. exfalso. apply N. apply (index_inj m V EVertex); auto. apply (ve_live m V); auto.
        -- apply Rsum_zero. intros h _. destruct (Nat.eqb_spec (nV + indexOf m EFace g) (nV + indexOf m EFace f)) as [Q|]; [|reflexivity]. exfalso. apply N. apply (index_inj m V EFace); auto. lia.
Qed.
End M.
