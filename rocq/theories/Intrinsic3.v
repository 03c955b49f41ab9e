From Coq Require Import Reals Lra Permutation.
From Verif Require Import Base DataModel DataSpec DataProofs MeshModel MeshSpec MeshBase MeshExec MeshOrbit MeshOpSpec MeshFlip MeshThms MeshSplit MeshHistorySpec MeshHistory MeshDataModel CollapseProofs CollapseTop CountSpec
  MatrixModel GeoModel IntrinsicModel IntrinsicSpec Intrinsic1 Intrinsic2.
Open Scope R_scope.

(** the elements of a mesh *)
Definition els (m : mesh) (k : ekind) : list nat := match elements m k with Ok l => l | _ => [] end.
Lemma els_ok m k : Valid m -> elements m k = Ok (els m k) /\ NoDup (els m k) /\ Z.of_nat (length (els m k)) = nElements m k /\ forall i, In i (els m k) <-> liveE m k (Z.of_nat i).
Proof. intros V. destruct (iterate_mesh m k V) as (l & E & _ & N & C & I). unfold els. rewrite E. auto. Qed.
Lemma total_map (g : Z -> R) l : total g l = Rsum g (map Z.of_nat l).
Proof. unfold total. rewrite Rsum_map. reflexivity. Qed.
Lemma NoDup_ofnat l : NoDup l -> NoDup (map Z.of_nat l).
Proof. induction 1; cbn; constructor; auto. intros K. apply in_map_iff in K as (y & E & Hy). apply Nat2Z.inj in E. congruence. Qed.
Lemma In_ofnat l z : (0 <= z)%Z -> (In z (map Z.of_nat l) <-> In (Z.to_nat z) l).
Proof.
  intros H. rewrite in_map_iff. split; [intros (y & <- & Hy); rewrite Nat2Z.id; auto|intros K]. exists (Z.to_nat z). split; auto. lia.
Qed.

Section M.
Context (m : mesh) (V : Valid m).
Let CN := va_cn m V.
Local Notation FS := (els m EFace). Local Notation CS := (els m ECorner). Local Notation VS := (els m EVertex). Local Notation ES := (els m EEdge). Local Notation HS := (els m EHalfedge).
Definition intH (h : Z) : Prop := liveH m h /\ ~ ext m h.
(** the elements as numbers *)
Definition zl (k : ekind) : list Z := map Z.of_nat (els m k).
Lemma zl_NoDup k : NoDup (zl k). Proof. apply NoDup_ofnat, els_ok, V. Qed.
Lemma liveE_nonneg k i : liveE m k i -> (0 <= i)%Z.
Proof. destruct k; cbn [liveE]; unfold liveV, liveH, liveF, liveBL, eHe; intros H; repeat match goal with K : _ /\ _ |- _ => destruct K end; lia. Qed.
Lemma zl_In k i : In i (zl k) <-> liveE m k i.
Proof.
  unfold zl. split.
  - intros K. apply in_map_iff in K as (y & <- & Hy). apply (els_ok m k V). auto.
  - intros K. pose proof (liveE_nonneg k i K). rewrite In_ofnat by auto. apply (els_ok m k V). rewrite Z2Nat.id by auto. auto.
Qed.
Lemma zl_len k : INR (length (zl k)) = IZR (nElements m k).
Proof. unfold zl. rewrite map_length, INR_IZR_INZ. f_equal. apply (els_ok m k V). Qed.

(** grouping sums over the mesh *)
Lemma sum_group (g : Z -> R) (l : list Z) (key : Z -> Z) (ks : list Z) (part : Z -> list Z) : NoDup l -> NoDup ks -> (forall h, In h l -> In (key h) ks) ->
  (forall k, In k ks -> NoDup (part k) /\ forall h, In h (part k) <-> In h l /\ key h = k) -> Rsum g l = Rsum (fun k => Rsum g (part k)) ks.
Proof.
  intros N NK I P. rewrite (Rsum_fiber Z.eqb zE key g l ks NK I). apply Rsum_ext. intros k Hk. destruct (P k Hk) as [P1 P2]. apply Rsum_set; auto; [apply filter_NoDup; auto|].
  intros h. rewrite filter_In, P2, Z.eqb_eq. tauto.
Qed.
Lemma fa_liveF h : intH h -> liveF m (fa m h).
Proof. intros [L X]. destruct (cn_fa _ CN h L) as [K|K]; auto. exfalso. apply X. unfold ext. pose proof (st_f _ (va_st m V)). destruct K. lia. Qed.
Lemma intH_nx h : intH h -> intH (nx m h).
Proof. intros [L X]. split; [apply CN; auto|]. rewrite (ext_nx m V) by auto. auto. Qed.
Lemma fh_int f : liveF m f -> intH (fh m f) /\ fa m (fh m f) = f.
Proof. intros K. destruct (cn_fh _ CN f) as [A B]; [left; auto|]. split; auto. split; auto. unfold ext. rewrite B. destruct K. lia. Qed.

Section Tri.
Context (TR : triangular m).
Lemma three h : intH h -> nx m (nx m (nx m h)) = h /\ nx m h <> h /\ nx m (nx m h) <> h /\ nx m h <> nx m (nx m h).
Proof.
  intros K. destruct (TR h) as (_ & E & N); [apply K|apply K|]. split; auto. split; auto. split.
  - intros Q. rewrite Q in E. congruence.
  - intros Q. apply N. symmetry. apply (cn_inj _ CN); [apply K|apply CN; apply K|]. auto.
Qed.
Definition ring3 (h : Z) : list Z := [h; nx m h; nx m (nx m h)].
Lemma ring3_ok h : intH h -> NoDup (ring3 h) /\ forall x, In x (ring3 h) <-> intH x /\ fa m x = fa m h.
Proof.
  intros K. destruct (three h K) as (E & N1 & N2 & N3). pose proof (intH_nx h K) as K1. pose proof (intH_nx _ K1) as K2. split.
  - unfold ring3. constructor; [cbn; intuition congruence|]. constructor; [cbn; intuition congruence|]. constructor; [cbn; auto|constructor].
  - intros x. split.
    + intros [<-|[<-|[<-|[]]]]; split; auto. { apply (cn_fnx _ CN), K. } rewrite (cn_fnx _ CN) by apply K1. apply (cn_fnx _ CN), K.
    + intros [[Lx Xx] F]. assert (R : reach (nx m) h x) by (apply (cn_forb _ CN); auto; apply K). destruct R as (n & <-). clear Lx Xx F. induction n as [|n IH]; [left; reflexivity|].
      change (Nat.iter (S n) (nx m) h) with (nx m (Nat.iter n (nx m) h)). unfold ring3 in *. cbn [In] in *. destruct IH as [<-|[<-|[<-|[]]]]; auto.
Qed.
Lemma sum_faces g : Rsum g (zl ECorner) = Rsum (fun f => Rsum g (ring3 (fh m f))) (zl EFace).
Proof.
  apply sum_group with (key := fa m); auto using zl_NoDup.
  - intros h Hh. apply zl_In in Hh. apply zl_In. apply fa_liveF. exact Hh.
  - intros f Hf. apply zl_In in Hf. cbn in Hf. destruct (fh_int f Hf) as [K F]. destruct (ring3_ok _ K) as [N R]. split; auto. intros h. rewrite R, F, zl_In. reflexivity.
Qed.
Lemma sum_ring3 (g : Z -> R) h : Rsum g (ring3 h) = g h + g (nx m h) + g (nx m (nx m h)).
Proof. unfold ring3. rewrite !Rsum_cons, Rsum_nil. lra. Qed.
End Tri.
Lemma sum_edges g : Rsum g (zl EHalfedge) = Rsum (fun e => g (eHe e) + g (tw (eHe e))) (zl EEdge).
Proof.
  rewrite (sum_group g (zl EHalfedge) edge (zl EEdge) sides); auto using zl_NoDup.
  - apply Rsum_ext. intros e _. unfold sides. rewrite !Rsum_cons, Rsum_nil. lra.
  - intros h Hh. apply zl_In in Hh. apply zl_In. change (liveH m h) in Hh. change (liveH m (eHe (edge h))). pose proof (cn_tw _ CN h Hh) as Ht. pose proof (edge_eq h (eHe (edge h))) as [Q _]. rewrite edge_eHe in Q. destruct (Q eq_refl) as [E|E].
    + rewrite <- E. auto.
    + replace (eHe (edge h)) with (tw h); auto. rewrite E at 1. apply tw_tw.
  - intros e He. apply zl_In in He. change (liveH m (eHe e)) in He. unfold sides. split; [constructor; [intros [K|[]]; apply (tw_neq (eHe e)); auto|constructor; [auto|constructor]]|].
    intros h. rewrite zl_In. cbn [In]. change (liveE m EHalfedge h) with (liveH m h). split.
    + intros [<-|[<-|[]]]; [rewrite edge_eHe|rewrite tw_edge, edge_eHe]; auto. split; auto. apply (cn_tw _ CN); auto.
    + intros [L E]. destruct (proj1 (edge_eq h (eHe e))) as [->| ->]; auto. rewrite edge_eHe; auto.
Qed.
(** corners grouped by vertex *)
Definition cornersAt (v : Z) : list Z := filter (fun h => (ve m h =? v)%Z) (zl ECorner).
Lemma cornersAt_ok v : cornersOf m v (cornersAt v).
Proof. split; [apply filter_NoDup, zl_NoDup|]. intros h. unfold cornersAt. rewrite filter_In, zl_In, Z.eqb_eq. cbn. tauto. Qed.
Lemma sum_vertices g : Rsum g (zl ECorner) = Rsum (fun v => Rsum g (cornersAt v)) (zl EVertex).
Proof.
  apply sum_group with (key := ve m); auto using zl_NoDup.
  - intros h Hh. apply zl_In in Hh. apply zl_In. apply CN. apply Hh.
  - intros v Hv. split; [apply filter_NoDup, zl_NoDup|]. intros h. unfold cornersAt. rewrite filter_In, Z.eqb_eq. tauto.
Qed.
(** exterior halfedges and boundary vertices *)
Definition extb (h : Z) : bool := (fFill m <=? fa m h)%Z.
Lemma extb_spec h : extb h = true <-> ext m h. Proof. unfold extb, ext. lia. Qed.
Lemma sum_halfedges g : Rsum g (zl EHalfedge) = Rsum g (zl ECorner) + Rsum g (filter extb (zl EHalfedge)).
Proof.
  rewrite <- (Rsum_if extb). replace (Rsum g (zl ECorner)) with (Rsum g (filter (fun h => negb (extb h)) (zl EHalfedge))).
  - rewrite <- (Rsum_if (fun h => negb (extb h))), <- Rsum_plus. apply Rsum_ext. intros h _. destruct (extb h); cbn; lra.
  - apply Rsum_set; [apply filter_NoDup, zl_NoDup|apply zl_NoDup|]. intros h. rewrite filter_In, !zl_In. cbn. rewrite Bool.negb_true_iff. pose proof (extb_spec h) as E. destruct (extb h); intuition congruence.
Qed.
Definition bdb (v : Z) : bool := extb (tw (vh m v)).
Lemma bdb_spec v : liveV m v -> (bdb v = true <-> onBoundary m v).
Proof.
  intros L. destruct (vertex_boundary m v V L) as (b & E & P & _). rewrite (vIsBoundary_ok m v V L) in E. injection E as E. unfold bdb, extb. rewrite E. rewrite P. reflexivity.
Qed.
Lemma vIsB v : liveV m v -> vIsBoundary m v = Ok (bdb v). Proof. intros L. apply vIsBoundary_ok; auto. Qed.
Lemma boundary_count : length (filter extb (zl EHalfedge)) = length (filter bdb (zl EVertex)).
Proof.
  rewrite <- (map_length (ve m)). apply Permutation_length. apply NoDup_Permutation.
  - assert (G : forall l, NoDup l -> (forall h, In h l -> liveH m h /\ ext m h) -> NoDup (map (ve m) l)).
    { induction 1 as [|h t N ND IH]; intros K; cbn; constructor; [|apply IH; intros; apply K; right; auto]. intros Q. apply in_map_iff in Q as (h' & E & Hh'). apply N.
      destruct (K h (or_introl eq_refl)) as [L1 X1]. destruct (K h' (or_intror Hh')) as [L2 X2]. replace h with h'; auto. apply (ext_out_unique m V); auto. }
    apply G; [apply filter_NoDup, zl_NoDup|]. intros h Hh. apply filter_In in Hh as [A B]. apply zl_In in A. apply extb_spec in B. auto.
  - apply filter_NoDup, zl_NoDup.
  - intros v. rewrite in_map_iff, filter_In. split.
    + intros (h & <- & Hh). apply filter_In in Hh as [A B]. apply zl_In in A. apply extb_spec in B. cbn in A. pose proof (cn_ve _ CN h A) as L. split; [apply zl_In; auto|].
      apply bdb_spec; auto. exists h. auto.
    + intros [A B]. apply zl_In in A. apply bdb_spec in B; auto. destruct B as (h & L & E & X). exists h. split; auto. apply filter_In. split; [apply zl_In; auto|]. apply extb_spec. auto.
Qed.
Lemma Rsum_one {A} (l : list A) : Rsum (fun _ => 1) l = INR (length l). Proof. rewrite Rsum_const. lra. Qed.
(** 2E = 3F + B *)
Lemma edge_count : triangular m -> 2 * IZR (nEdges m) = 3 * IZR (nFaces m) + INR (length (filter bdb (zl EVertex))).
Proof.
  intros TR. rewrite <- boundary_count. pose proof (sum_edges (fun _ => 1)) as A. pose proof (sum_halfedges (fun _ => 1)) as B. pose proof (sum_faces TR (fun _ => 1)) as C.
  rewrite (Rsum_ext (fun f => Rsum (fun _ => 1) (ring3 (fh m f))) (fun _ => 3)) in C by (intros; rewrite sum_ring3; lra). rewrite Rsum_one in A, C. rewrite !Rsum_one in B. rewrite !Rsum_const in A, C.
  rewrite !zl_len in *. cbn [nElements] in *. lra.
Qed.
End M.
