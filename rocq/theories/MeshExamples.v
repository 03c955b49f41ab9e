(** Concrete meshes built by the modelled constructor, used as witnesses. *)
From Verif Require Import Base MeshModel MeshSpec MeshBase MeshOpSpec MeshCheck MeshBuildModel.
Open Scope Z_scope.

Definition built (polys : list (list Z)) : mesh := match buildMesh polys with Ok m => m | _ => emptyMesh end.
(** two triangles sharing an edge *)
Definition quad := built [[0;1;2];[0;2;3]].
(** a tetrahedron *)
Definition tet := built [[0;1;2];[0;2;3];[0;3;1];[1;3;2]].
(** two triangles glued along all three edges *)
Definition pillow := built [[0;1;2];[0;2;1]].
(** a square folded along its diagonal into a sphere with two vertices of degree one *)
Definition folded := built [[0;1;2;1]].
Lemma quad_valid : Valid quad. Proof. apply validb_Valid. vm_compute. reflexivity. Qed.
Lemma tet_valid : Valid tet. Proof. apply validb_Valid. vm_compute. reflexivity. Qed.
Lemma pillow_valid : Valid pillow. Proof. apply validb_Valid. vm_compute. reflexivity. Qed.
Lemma folded_valid : Valid folded. Proof. apply validb_Valid. vm_compute. reflexivity. Qed.
(** decide liveness and incidence facts of concrete meshes *)
Ltac conc := repeat split; vm_compute; first [discriminate | reflexivity | (intros ?; discriminate) | (let K := fresh in intros K; apply K; reflexivity)].
Lemma live_dec m h : inH m h = true -> liveH m h. Proof. apply inH_live. Qed.
(** a pentagon *)
Definition pent := built [[0;1;2;3;4]].
Lemma pent_valid : Valid pent. Proof. apply validb_Valid. vm_compute. reflexivity. Qed.
(** deciding [simpleStar] *)
Definition rimb m v x := inH m x && negb (ve m x =? v) && negb (ve m (tw x) =? v) && existsb (fun h => inH m h && (ve m h =? v) && (fa m x =? fa m h)) (zseq (heFill m)).
Lemma rimb_rim m v x : rimb m v x = true <-> rim m v x.
Proof.
  unfold rimb, rim. rewrite !andb_true_iff, existsb_exists, inH_live, !negb_true_iff, !Z.eqb_neq. split.
  - intros (((A & B) & C) & h & D & E). rewrite !andb_true_iff, inH_live, !Z.eqb_eq in E. split; auto. split; auto. split; auto. exists h. tauto.
  - intros (A & B & C & h & D & E & F). split; auto. exists h. split; [apply zseq_In; apply D|]. rewrite !andb_true_iff, inH_live, !Z.eqb_eq. auto.
Qed.
Definition simpleStarb m v :=
  allb (fun h => negb (inH m h && (ve m h =? v)) || negb (ve m (tw h) =? v) && negb (nx m (nx m h) =? h) &&
     allb (fun g => negb (inH m g && (ve m g =? v) && (fa m h =? fa m g)) || (h =? g)) (heFill m)) (heFill m) &&
  allb (fun x => negb (rimb m v x) || negb (rimb m v (tw x)) && allb (fun y => negb (rimb m v y && (ve m x =? ve m y)) || (x =? y)) (heFill m)) (heFill m).
Lemma simpleStarb_ok m v : simpleStarb m v = true -> simpleStar m v.
Proof.
  unfold simpleStarb. rewrite andb_true_iff, !allb_ok. intros [A B].
  assert (A' : forall h, liveH m h -> ve m h = v -> ve m (tw h) <> v /\ nx m (nx m h) <> h /\ forall g, liveH m g -> ve m g = v -> fa m h = fa m g -> h = g).
  { intros h Lh Vh. specialize (A h (proj1 Lh)). rewrite (proj2 (inH_live m h) Lh), Vh, Z.eqb_refl in A. cbn [andb negb orb] in A. rewrite !andb_true_iff, allb_ok, !negb_true_iff, !Z.eqb_neq in A.
    destruct A as [[A1 A2] A3]. split; auto. split; auto. intros g Lg Vg E. specialize (A3 g (proj1 Lg)). rewrite (proj2 (inH_live m g) Lg), Vg, E, !Z.eqb_refl in A3. cbn in A3. apply Z.eqb_eq; auto. }
  assert (B' : forall x, rim m v x -> ~ rim m v (tw x) /\ forall y, rim m v y -> ve m x = ve m y -> x = y).
  { intros x Rx. specialize (B x (proj1 (proj1 Rx))). rewrite (proj2 (rimb_rim m v x) Rx) in B. cbn [negb orb] in B. rewrite andb_true_iff, allb_ok, negb_true_iff in B. destruct B as [B1 B2]. split.
    - intros K. apply rimb_rim in K. congruence.
    - intros y Ry E. specialize (B2 y (proj1 (proj1 Ry))). rewrite (proj2 (rimb_rim m v y) Ry), E, Z.eqb_refl in B2. cbn in B2. apply Z.eqb_eq; auto. }
  split; intros.
  - apply A'; auto.
  - apply A'; auto.
  - apply A'; auto.
  - apply B'; auto.
  - apply B'; auto.
Qed.
(** deciding [triangular] *)
Definition triangularb m := allb (fun h => negb (inH m h) || (fFill m <=? fa m h) || (nx m (nx m (nx m h)) =? h) && negb (nx m h =? h)) (heFill m).
Lemma triangularb_ok m : triangularb m = true -> triangular m.
Proof.
  unfold triangularb. rewrite allb_ok. intros H h L E. specialize (H h (proj1 L)). rewrite (proj2 (inH_live m h) L) in H. unfold ext in E. cbn [negb orb] in H.
  destruct (Z.leb_spec (fFill m) (fa m h)); [contradiction|]. cbn [orb] in H. apply andb_prop in H as [H1 H2]. split; [unfold ext; lia|]. split; [lia|]. intros K. rewrite K, Z.eqb_refl in H2. discriminate.
Qed.
Lemma simpleStar_dec m v : {simpleStar m v} + {~ simpleStar m v}.
Proof.
  destruct (simpleStarb m v) eqn:E; [left; apply simpleStarb_ok; auto|]. right. intros S. apply not_true_iff_false in E. apply E. clear E.
  unfold simpleStarb. rewrite andb_true_iff, !allb_ok. split.
  - intros h R. destruct (inH m h) eqn:L; auto. destruct (Z.eqb_spec (ve m h) v) as [K|K]; auto. apply inH_live in L. cbn [andb negb orb]. rewrite !andb_true_iff, allb_ok.
    split; [split|].
    + apply negb_true_iff, Z.eqb_neq. apply (ss_loop _ _ S); auto.
    + apply negb_true_iff, Z.eqb_neq. apply (ss_bigon _ _ S); auto.
    + intros g Rg. destruct (inH m g) eqn:Lg; auto. apply inH_live in Lg. destruct (Z.eqb_spec (ve m g) v) as [Kg|Kg]; auto. destruct (Z.eqb_spec (fa m h) (fa m g)) as [F|F]; auto.
      cbn. apply Z.eqb_eq. apply (ss_face _ _ S); auto.
  - intros x R. destruct (rimb m v x) eqn:X; auto. apply rimb_rim in X. cbn [negb orb]. rewrite andb_true_iff, allb_ok. split.
    + apply negb_true_iff. apply not_true_iff_false. rewrite rimb_rim. apply (ss_edge _ _ S); auto.
    + intros y Ry. destruct (rimb m v y) eqn:Y; auto. apply rimb_rim in Y. destruct (Z.eqb_spec (ve m x) (ve m y)) as [F|F]; auto. cbn. apply Z.eqb_eq. apply (ss_vert _ _ S); auto.
Qed.
