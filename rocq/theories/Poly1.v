From Coq Require Import Reals Lra Permutation.
From Verif Require Import Base DataModel DataSpec DataProofs MeshModel MeshSpec MeshBase MeshExec MeshOrbit MeshOpSpec MeshFlip MeshThms MeshSplit MeshHistorySpec MeshHistory MeshDataModel CollapseProofs CountSpec
  MatrixModel MatrixSpec MatrixProofs GeoModel IntrinsicModel IntrinsicSpec EmbeddedModel EmbeddedSpec Intrinsic1 Intrinsic2 Intrinsic3 Intrinsic4 Intrinsic5 Intrinsic7 Intrinsic8 PolyModel PolySpec.
Open Scope R_scope.
(** ** sums over positions *)
Lemma sumTo_R n f : sumTo n f = Rsum f (seq 0 n). Proof. reflexivity. Qed.
Lemma Rsum_nth {A} (g : A -> R) (l : list A) (d : A) : Rsum (fun i => g (nth i l d)) (seq 0 (length l)) = Rsum g l.
Proof.
  rewrite <- (Rsum_map (fun i => nth i l d) g). f_equal. induction l as [|a t IH]; [reflexivity|]. cbn [length seq map nth]. f_equal. rewrite <- seq_shift, map_map. exact IH.
Qed.
Lemma Rsum_at n k (x : R) : (k < n)%nat -> Rsum (fun i => if (i =? k)%nat then x else 0) (seq 0 n) = x.
Proof. intros H. rewrite (Rsum_ext _ (fun i => if (k =? i)%nat then x else 0)) by (intros; rewrite Nat.eqb_sym; auto). apply (Rsum_delta Nat.eqb natE (fun _ => x)); [apply seq_NoDup|apply in_seq; lia]. Qed.
Definition bil (n : nat) (M : nat -> nat -> R) (X Y : nat -> R) : R := Rsum (fun j => Rsum (fun i => M i j * X i * Y j) (seq 0 n)) (seq 0 n).
Definition lin (n : nat) (v X : nat -> R) : R := Rsum (fun i => v i * X i) (seq 0 n).
Lemma bil_ext n M M' X Y X' Y' : (forall i j, (i < n)%nat -> (j < n)%nat -> M i j = M' i j) -> (forall i, (i < n)%nat -> X i = X' i /\ Y i = Y' i) -> bil n M X Y = bil n M' X' Y'.
Proof. intros H E. apply Rsum_ext. intros j Hj. apply Rsum_ext. intros i Hi. apply in_seq in Hi, Hj. rewrite H by lia. destruct (E i), (E j); try lia. congruence. Qed.
Lemma bil_add n M M' X Y : bil n (fun i j => M i j + M' i j) X Y = bil n M X Y + bil n M' X Y.
Proof. unfold bil. rewrite <- Rsum_plus. apply Rsum_ext. intros j _. rewrite <- Rsum_plus. apply Rsum_ext. intros; ring. Qed.
Lemma bil_scal n c M X Y : bil n (fun i j => c * M i j) X Y = c * bil n M X Y.
Proof. unfold bil. rewrite <- Rsum_scal. apply Rsum_ext. intros j _. rewrite <- Rsum_scal. apply Rsum_ext. intros; ring. Qed.
Lemma bil_rank1 n a b X Y : bil n (fun i j => a i * b j) X Y = lin n a X * lin n b Y.
Proof.
  unfold bil, lin. rewrite <- Rsum_scal. apply Rsum_ext. intros j _. rewrite (Rsum_ext _ (fun i => b j * Y j * (a i * X i))) by (intros; ring). rewrite Rsum_scal. ring.
Qed.
Lemma bil_zero n X Y : bil n (fun _ _ => 0) X Y = 0.
Proof. apply Rsum_zero. intros j _. apply Rsum_zero. intros; ring. Qed.
Lemma bil_one n k l x X Y : (k < n)%nat -> (l < n)%nat -> bil n (fun i j => if ((i =? k) && (j =? l))%nat then x else 0) X Y = x * X k * Y l.
Proof.
  intros Hk Hl. unfold bil. rewrite (Rsum_ext _ (fun j => if (j =? l)%nat then x * X k * Y l else 0)); [apply Rsum_at; auto|]. intros j Hj.
  destruct (Nat.eqb_spec j l) as [->|]; [|apply Rsum_zero; intros; rewrite andb_false_r; ring]. rewrite <- (Rsum_at n k (x * X k * Y l) Hk) at 1. apply Rsum_ext. intros i _. rewrite andb_true_r. destruct (Nat.eqb_spec i k) as [->|]; ring.
Qed.
Lemma bil_incr n M i j x X Y : (i < n)%nat -> (j < n)%nat -> bil n (de (incr M i j x)) X Y = bil n (de M) X Y + x * X i * Y j.
Proof.
  intros Hi Hj. rewrite <- (bil_one n i j x X Y Hi Hj), <- bil_add. apply bil_ext; auto. intros a b _ _. cbn [incr de]. destruct ((a =? i) && (b =? j))%nat; ring.
Qed.
Lemma lin_one n k x X : (k < n)%nat -> lin n (fun i => if (i =? k)%nat then x else 0) X = x * X k.
Proof. intros H. rewrite <- (Rsum_at n k (x * X k) H). apply Rsum_ext. intros i _. destruct (Nat.eqb_spec i k) as [->|]; ring. Qed.
Lemma lin_incr n v i x X : (i < n)%nat -> lin n (incrV v i x) X = lin n v X + x * X i.
Proof. intros H. rewrite <- (lin_one n i x X H). unfold lin. rewrite <- Rsum_plus. apply Rsum_ext. intros a _. unfold incrV. destruct (a =? i)%nat; ring. Qed.
Lemma lin_last n v x X : lin n (incrV v n x) X = lin n v X.
Proof. apply Rsum_ext. intros a Ha. apply in_seq in Ha. unfold incrV. destruct (Nat.eqb_spec a n); [lia|ring]. Qed.
Lemma incr_ne v i a x : a <> i -> incrV v i x a = v a. Proof. intros H. unfold incrV. destruct (Nat.eqb_spec a i); congruence. Qed.
Lemma incr_eq v i x : incrV v i x i = v i + x. Proof. unfold incrV. rewrite Nat.eqb_refl. reflexivity. Qed.
Lemma mapM_map {A B} (f : A -> res B) (g : A -> B) l : (forall a, In a l -> f a = Ok (g a)) -> mapM f l = Ok (map g l).
Proof. induction l as [|a t IH]; intros H; cbn [mapM map]; auto. rewrite H by (left; auto). cbn [bind]. rewrite IH by (intros; apply H; right; auto). reflexivity. Qed.
Lemma flat_map_ext' {A B} (f g : A -> list B) l : (forall a, In a l -> f a = g a) -> flat_map f l = flat_map g l.
Proof. induction l as [|a t IH]; intros H; cbn [flat_map]; auto. rewrite H by (left; auto). f_equal. apply IH. intros; apply H; right; auto. Qed.
Lemma nth_map_lt {A B} (f : A -> B) l i d d' : (i < length l)%nat -> nth i (map f l) d' = f (nth i l d).
Proof. intros H. rewrite (nth_indep _ d' (f d)) by (rewrite map_length; auto). apply map_nth. Qed.
Section M.
Context (m : mesh) (V : Valid m).
Let CN := va_cn m V.
Local Notation intH := (intH m).
Lemma every_zl k : every m k = zl m k. Proof. reflexivity. Qed.
(** ** the halfedges of a face *)
Definition fl (f : Z) : list Z := match faceHalfedges m f with Ok l => l | _ => [] end.
Lemma chain_nth f a l b d : chain f a l b -> forall i, (i < length l)%nat -> f (nth i l d) = if (S i <? length l)%nat then nth (S i) l d else b.
Proof.
  revert a. induction l as [|x t IH]; intros a C i Hi; [cbn in Hi; lia|]. cbn in C. destruct C as [-> C]. destruct i as [|i].
  - cbn [nth length]. destruct t as [|y t]; [cbn in C; cbn; auto|]. cbn in C. destruct C as [-> _]. reflexivity.
  - cbn [nth length]. cbn [length] in Hi. rewrite (IH _ C i) by lia. replace (S (S i) <? S (length t))%nat with (S i <? length t)%nat by (destruct (Nat.ltb_spec (S i) (length t)), (Nat.ltb_spec (S (S i)) (S (length t))); auto; lia). reflexivity.
Qed.
Lemma fl_ok f : liveF m f -> faceHalfedges m f = Ok (fl f) /\ fl f <> [] /\ NoDup (fl f) /\ (forall h, In h (fl f) <-> intH h /\ fa m h = f) /\
  forall i, (i < length (fl f))%nat -> nx m (nth i (fl f) 0%Z) = nth ((i + 1) mod length (fl f)) (fl f) 0%Z.
Proof.
  intros L. destruct (faceHalfedges_ok m V f (or_introl L)) as (l & E & N & C & ND & I). unfold fl. rewrite E. split; auto. split; auto. split; auto. split.
  - intros h. rewrite I. unfold Intrinsic3.intH, ext. split; [|tauto]. intros [A B]. split; auto. split; auto. rewrite B. destruct L as [L _]. lia.
  - intros i Hi. rewrite (chain_nth _ _ _ _ 0%Z C i Hi). destruct (Nat.ltb_spec (S i) (length l)) as [Q|Q].
    + rewrite Nat.mod_small by lia. replace (i + 1)%nat with (S i) by lia. reflexivity.
    + replace (i + 1)%nat with (length l) by lia. rewrite Nat.mod_same by lia. destruct l as [|x t]; [congruence|]. cbn in C. cbn. symmetry. apply C.
Qed.
Lemma fl_nth f i : liveF m f -> (i < length (fl f))%nat -> intH (nth i (fl f) 0%Z) /\ fa m (nth i (fl f) 0%Z) = f.
Proof. intros L Hi. destruct (fl_ok f L) as (_ & _ & _ & I & _). apply I, nth_In. auto. Qed.
Lemma sum_face f g : liveF m f -> faceSum m g f = Rsum g (fl f).
Proof.
  intros L. destruct (fl_ok f L) as (_ & _ & ND & I & _). apply Rsum_set; auto; [apply filter_NoDup, zl_NoDup; auto|]. intros h. rewrite filter_In, every_zl, zl_In, I, Z.eqb_eq by auto. reflexivity.
Qed.
Lemma sum_all_faces g : Rsum g (zl m ECorner) = Rsum (fun f => Rsum g (fl f)) (zl m EFace).
Proof.
  apply sum_group with (key := fa m).
  - apply zl_NoDup; auto.
  - apply zl_NoDup; auto.
  - intros h Hh. apply zl_In in Hh; auto. apply zl_In; auto. apply (fa_liveF m V). exact Hh.
  - intros f Hf. apply zl_In in Hf; auto. destruct (fl_ok f Hf) as (_ & _ & ND & I & _). split; auto. intros h. rewrite I, zl_In by auto. reflexivity.
Qed.
Lemma ve_live h : intH h -> liveV m (ve m h). Proof. intros [K _]. apply (cn_ve _ CN). auto. Qed.
Lemma faceVerts_ok f : liveF m f -> faceVerts m f = Ok (map (ve m) (fl f)).
Proof.
  intros L. destruct (fl_ok f L) as (E & _ & _ & I & _). unfold faceVerts. rewrite E. cbn [bind]. apply mapM_map. intros h Hh. apply I in Hh as [[K _] _]. apply vertexOf_ok. destruct (liveH_bnd m V _ K) as (_ & _ & ? & _). auto.
Qed.
Lemma positions_ok (pos : mdata V3) f : length (dat pos) = Z.to_nat (vCap m) -> liveF m f -> polygonPositions m pos f = Ok (map (fun h => pt pos (ve m h)) (fl f)).
Proof.
  intros LP L. unfold polygonPositions. rewrite faceVerts_ok by auto. cbn [bind]. rewrite (mapM_map _ (pt pos)).
  - rewrite map_map. reflexivity.
  - intros v Hv. apply in_map_iff in Hv as (h & <- & Hh). apply (fl_ok f L) in Hh as [K _]. apply (dataAt_in (mk3 0 0 0)). rewrite LP. apply (v_cap m V). apply ve_live. auto.
Qed.
(** ** assembling *)
Section As.
Context (lump : bool) (local : Z -> res dense) (loc : Z -> dense) (HL : forall f, liveF m f -> local f = Ok (loc f)).
Definition vAt (f : Z) (i : nat) : Z := ve m (nth i (fl f) 0%Z).
Definition part (f : Z) : list (ztrip R) :=
  flat_map (fun j => map (fun i => (vAt f i, vAt f (if lump then i else j), de (loc f) i j)) (seq 0 (length (fl f)))) (seq 0 (length (fl f))).
Lemma part_In f t : liveF m f -> In t (part f) -> liveE m EVertex (fst (fst t)) /\ liveE m EVertex (snd (fst t)).
Proof.
  intros L I. apply in_flat_map in I as (j & Hj & I). apply in_map_iff in I as (i & <- & Hi). apply in_seq in Hi, Hj. cbn [fst snd liveE]. unfold vAt. split; apply ve_live; [apply fl_nth; auto; lia|]. destruct lump; apply fl_nth; auto; lia.
Qed.
Lemma assemble_ok : exists M, assemble m lump local = Ok M /\ rows M = Z.to_nat (nVertices m) /\ cols M = Z.to_nat (nVertices m) /\
  forall x y, form m M x y = Rsum (fun f => Rsum (fun j => Rsum (fun i => de (loc f) i j * x (vAt f i) * y (vAt f (if lump then i else j))) (seq 0 (length (fl f)))) (seq 0 (length (fl f)))) (zl m EFace).
Proof.
  destruct (indices_ok m V EVertex) as (vi & EI & _ & HI); [left; auto|]. destruct (els_ok m EFace V) as (E & _). unfold assemble. rewrite EI. cbn [bind]. rewrite E. cbn [bind]. rewrite forEach_map. fold (zl m EFace).
  rewrite (foldM_gather _ (fun f => map (toTrip m EVertex EVertex) (part f))).
  2: { intros acc f Hf. apply zl_In in Hf; auto. rewrite faceVerts_ok by auto. cbn [bind]. rewrite (mapM_map _ (indexOf m EVertex)).
       2: { intros v Hv. apply in_map_iff in Hv as (h & <- & Hh). apply (fl_ok f Hf) in Hh as [K _]. apply HI. apply ve_live. auto. }
       cbn [bind]. rewrite HL by auto. cbn [bind]. rewrite !map_length. f_equal. f_equal. unfold part. rewrite map_flat. apply flat_map_ext'. intros j Hj. symmetry. rewrite map_map. apply map_ext_in. intros i Hi. apply in_seq in Hi, Hj. unfold toTrip, vAt. cbn [fst snd].
       rewrite map_map. rewrite !(nth_map_lt (fun x => indexOf m EVertex (ve m x)) (fl f) _ 0%Z 0%nat) by (destruct lump; lia). reflexivity. }
  cbn [bind app]. rewrite <- map_flat.
  assert (LV : forall t, In t (flat_map part (zl m EFace)) -> liveE m EVertex (fst (fst t)) /\ liveE m EVertex (snd (fst t))).
  { intros t It. apply in_flat_map in It as (f & Hf & It). apply zl_In in Hf; auto. apply (part_In f); auto. }
  destruct (zsparse m V Rplus 0 (fun x => x) (fun _ _ => eq_refl) eq_refl EVertex EVertex (flat_map part (zl m EFace)) LV) as (M & EM & RM & C & S).
  exists M. split; [exact EM|]. split; auto. split; auto. intros x y. unfold form. rewrite !every_zl.
  rewrite (Rsum_ext _ (fun a => Rsum (fun t : ztrip R => if (fst (fst t) =? a)%Z then x a * (snd t * y (snd (fst t))) else 0) (flat_map part (zl m EFace)))).
  2: { intros a Ha. apply zl_In in Ha; auto. rewrite (zaction m V EVertex EVertex _ (entryAt 0 m EVertex EVertex M) y a LV S Ha). rewrite <- Rsum_scal. apply Rsum_ext. intros t _. destruct (fst (fst t) =? a)%Z; ring. }
  rewrite Rsum_swap. rewrite (Rsum_ext _ (fun t => snd t * x (fst (fst t)) * y (snd (fst t)))).
  2: { intros t It. rewrite (Rsum_delta Z.eqb zE (fun a => x a * (snd t * y (snd (fst t))))); [ring|apply zl_NoDup; auto|apply zl_In; auto; apply LV; auto]. }
  rewrite Rsum_flat_map. apply Rsum_ext. intros f _. unfold part. rewrite Rsum_flat_map. apply Rsum_ext. intros j _. rewrite Rsum_map. reflexivity.
Qed.
End As.
(** entries from the form *)
Definition ind (a : Z) : Z -> R := fun x => if (x =? a)%Z then 1 else 0.
Lemma Rsum_ind (f : Z -> R) a l : NoDup l -> In a l -> Rsum (fun x => ind a x * f x) l = f a.
Proof. intros N I. rewrite <- (Rsum_delta Z.eqb zE f l a N I). apply Rsum_ext. intros x _. unfold ind. rewrite (Z.eqb_sym x a). destruct (a =? x)%Z; ring. Qed.
Lemma form_row M a y : liveV m a -> form m M (ind a) y = Rsum (fun b => entryAt 0 m EVertex EVertex M a b * y b) (zl m EVertex).
Proof. intros L. unfold form. rewrite !every_zl. rewrite (Rsum_ind (fun a => Rsum (fun b => entryAt 0 m EVertex EVertex M a b * y b) (zl m EVertex))); auto; [apply zl_NoDup; auto|apply zl_In; auto]. Qed.
Lemma form_entry M a b : liveV m a -> liveV m b -> form m M (ind a) (ind b) = entryAt 0 m EVertex EVertex M a b.
Proof. intros La Lb. rewrite form_row by auto. rewrite (Rsum_ext _ (fun x => ind b x * entryAt 0 m EVertex EVertex M a x)) by (intros; ring). apply (Rsum_ind (entryAt 0 m EVertex EVertex M a)); [apply zl_NoDup; auto|apply zl_In; auto]. Qed.
End M.
