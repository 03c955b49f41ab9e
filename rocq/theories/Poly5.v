From Coq Require Import Reals Lra Permutation.
From Verif Require Import Base DataModel MeshModel MeshDataModel GeoModel IntrinsicModel IntrinsicSpec EmbeddedModel EmbeddedSpec Intrinsic1 PolyModel PolySpec Poly1 Poly2.
Open Scope R_scope.
(** ** matrices applied to vectors *)
Definition app_ (M : dense) (v : nat -> R) (i : nat) : R := Rsum (fun k => de M i k * v k) (seq 0 (dc M)).
Lemma app_mul A B v i : app_ (dmul A B) v i = app_ A (app_ B v) i.
Proof.
  unfold app_. cbn [dmul dc de]. rewrite (Rsum_ext _ (fun j => Rsum (fun k => de A i k * de B k j * v j) (seq 0 (dc A)))).
  - rewrite Rsum_swap. apply Rsum_ext. intros k _. rewrite <- Rsum_scal. apply Rsum_ext. intros; ring.
  - intros j _. rewrite sumTo_R. rewrite Rmult_comm, <- Rsum_scal. apply Rsum_ext. intros; ring.
Qed.
Lemma app_ext M v w i : (forall k, (k < dc M)%nat -> v k = w k) -> app_ M v i = app_ M w i.
Proof. intros H. apply Rsum_ext. intros k Hk. apply in_seq in Hk. rewrite H by lia. auto. Qed.
Lemma app_sub A B v i : dc A = dc B -> app_ (dsub A B) v i = app_ A v i - app_ B v i.
Proof. intros E. unfold app_. cbn [dsub dc de]. rewrite <- E, <- Rsum_minus. apply Rsum_ext. intros; ring. Qed.
Lemma app_scale c A v i : app_ (dscale c A) v i = c * app_ A v i.
Proof. unfold app_. cbn [dscale dc de]. rewrite <- Rsum_scal. apply Rsum_ext. intros; ring. Qed.
Lemma app_ident n v i : (i < n)%nat -> app_ (ident n) v i = v i.
Proof. intros H. unfold app_. cbn [ident dc de]. rewrite <- (Rsum_at n i (v i) H). apply Rsum_ext. intros k _. rewrite Nat.eqb_sym. destruct (Nat.eqb_spec k i) as [->|]; ring. Qed.
Lemma bil_gram A B n X Y : dc A = n -> dc B = n -> bil n (de (dmul (dtr A) B)) X Y = Rsum (fun k => app_ A X k * app_ B Y k) (seq 0 (dr A)).
Proof.
  intros EA EB. unfold bil. cbn [dmul dtr dc de].
  rewrite (Rsum_ext _ (fun j => Rsum (fun k => Rsum (fun i => de A k i * X i * (de B k j * Y j)) (seq 0 n)) (seq 0 (dr A)))).
  - rewrite Rsum_swap. apply Rsum_ext. intros k _. rewrite (Rsum_ext _ (fun j => app_ A X k * (de B k j * Y j))).
    + rewrite Rsum_scal. unfold app_. rewrite EB. reflexivity.
    + intros j _. rewrite (Rsum_ext _ (fun i => de B k j * Y j * (de A k i * X i))) by (intros; ring). rewrite Rsum_scal. unfold app_. rewrite EA. ring.
  - intros j _. rewrite Rsum_swap. apply Rsum_ext. intros i _. rewrite sumTo_R. rewrite (Rsum_ext (fun k => de A k i * X i * (de B k j * Y j)) (fun k => (X i * Y j) * (de A k i * de B k j))) by (intros; ring). rewrite Rsum_scal. ring.
Qed.
Lemma bil_right B C n X Y : dc B = n -> dc C = n -> bil n (de (dmul B C)) X Y = bil n (de B) X (app_ C Y).
Proof.
  intros EB EC. unfold bil. cbn [dmul dc de]. rewrite EB.
  rewrite (Rsum_ext _ (fun j => Rsum (fun k => Rsum (fun i => de B i k * X i * (de C k j * Y j)) (seq 0 n)) (seq 0 n))).
  - rewrite Rsum_swap. apply Rsum_ext. intros k _. rewrite Rsum_swap. apply Rsum_ext. intros i _. rewrite Rsum_scal. unfold app_. rewrite EC. reflexivity.
  - intros j _. rewrite Rsum_swap. apply Rsum_ext. intros i _. rewrite sumTo_R. rewrite (Rsum_ext (fun k => de B i k * X i * (de C k j * Y j)) (fun k => (X i * Y j) * (de B i k * de C k j))) by (intros; ring). rewrite Rsum_scal. ring.
Qed.
Lemma bil_left D I n X Y : dr D = n -> dc D = n -> dc I = n -> bil n (de (dmul (dtr D) I)) X Y = bil n (de I) (app_ D X) Y.
Proof.
  intros ED ED' EI. rewrite bil_gram by auto. rewrite ED. unfold bil. rewrite Rsum_swap. apply Rsum_ext. intros k _. unfold app_ at 2. rewrite EI, <- Rsum_scal. apply Rsum_ext. intros j _. ring.
Qed.
Lemma bil_inner lam A U P n X Y : dr U = 3%nat -> dc U = n -> dr P = n -> dc P = n ->
  bil n (de (dadd (dmul (dscale A (dtr U)) U) (dmul (dscale lam (dtr P)) P))) X Y =
  A * Rsum (fun k => app_ U X k * app_ U Y k) (seq 0 3) + lam * Rsum (fun k => app_ P X k * app_ P Y k) (seq 0 n).
Proof.
  intros E1 E2 E3 E4. unfold dadd at 1. cbn [de]. rewrite bil_add. f_equal.
  - rewrite <- E1, <- (bil_gram U U n X Y) by auto. rewrite <- bil_scal. apply bil_ext; auto. intros i j _ _. cbn [dmul dscale dtr dc de]. rewrite !sumTo_R, <- Rsum_scal. apply Rsum_ext. intros; ring.
  - rewrite <- E3 at 2. rewrite <- (bil_gram P P n X Y) by auto. rewrite <- bil_scal. apply bil_ext; auto. intros i j _ _. cbn [dmul dscale dtr dc de]. rewrite !sumTo_R, <- Rsum_scal. apply Rsum_ext. intros; ring.
Qed.
(** ** the difference and the average *)
Section N.
Context (n : nat).
Local Notation i1 i := ((i + 1) mod n)%nat.
Lemma puts x y is : forall M a b, de (fold_left (fun A i => put (put A i (i1 i) x) i i y) is M) a b =
  if existsb (Nat.eqb a) is then (if (b =? a)%nat then y else if (b =? i1 a)%nat then x else de M a b) else de M a b.
Proof.
  induction is as [|i t IH]; intros M a b; cbn [fold_left existsb]; auto. rewrite IH. cbn [put de]. destruct (Nat.eqb_spec a i) as [->|N]; cbn [orb andb].
  - destruct (existsb (Nat.eqb i) t), (b =? i)%nat, (b =? i1 i)%nat; reflexivity.
  - reflexivity.
Qed.
Lemma puts_size x y is M : dr (fold_left (fun A i => put (put A i (i1 i) x) i i y) is M) = dr M /\ dc (fold_left (fun A i => put (put A i (i1 i) x) i i y) is M) = dc M.
Proof. revert M. induction is as [|i t IH]; intros M; cbn [fold_left]; auto. destruct (IH (put (put M i (i1 i) x) i i y)) as [-> ->]. auto. Qed.
Lemma ex_seq a : (a < n)%nat -> existsb (Nat.eqb a) (seq 0 n) = true.
Proof. intros H. apply existsb_exists. exists a. rewrite Nat.eqb_refl. split; auto. apply in_seq. lia. Qed.
Lemma i1_ne i : (2 <= n)%nat -> (i < n)%nat -> i1 i <> i.
Proof. intros H B. destruct (Nat.eq_dec (i + 1) n) as [E|E]; [rewrite E, Nat.mod_same by lia; lia|rewrite Nat.mod_small by lia; lia]. Qed.
Lemma two_terms x y v a M : dc M = n -> (2 <= n)%nat -> (a < n)%nat -> (forall b, de M a b = if (b =? a)%nat then y else if (b =? i1 a)%nat then x else 0) -> app_ M v a = y * v a + x * v (i1 a).
Proof.
  intros E H B Q. unfold app_. rewrite E. assert (B1 : (i1 a < n)%nat) by (apply Nat.mod_upper_bound; lia). pose proof (i1_ne a H B) as NE.
  rewrite <- (Rsum_at n a (y * v a) B), <- (Rsum_at n (i1 a) (x * v (i1 a)) B1), <- Rsum_plus. apply Rsum_ext. intros k _. rewrite Q. destruct (Nat.eqb_spec k a) as [->|]; [destruct (Nat.eqb_spec a (i1 a)); [congruence|ring]|]. destruct (Nat.eqb_spec k (i1 a)) as [->|]; ring.
Qed.
Lemma der_app v a : (2 <= n)%nat -> (a < n)%nat -> app_ (derivative n) v a = v (i1 a) - v a.
Proof. intros H B. rewrite (two_terms 1 (-1) v a); auto; [ring|apply puts_size|]. intros b. unfold derivative. rewrite puts, ex_seq by auto. reflexivity. Qed.
Lemma avg_app v a : (2 <= n)%nat -> (a < n)%nat -> app_ (averaging n) v a = (v a + v (i1 a)) / 2.
Proof. intros H B. rewrite (two_terms (1 / 2) (1 / 2) v a); auto; [field|apply puts_size|]. intros b. unfold averaging. rewrite puts, ex_seq by auto. reflexivity. Qed.
Lemma der_size : dr (derivative n) = n /\ dc (derivative n) = n. Proof. apply puts_size. Qed.
Lemma avg_size : dr (averaging n) = n /\ dc (averaging n) = n. Proof. apply puts_size. Qed.
End N.
(** ** the matrices of a polygon *)
Section P.
Context (poly : list V3).
Local Notation n := (length poly).
Context (H2 : (2 <= n)%nat).
Local Notation i1 i := ((i + 1) mod n)%nat.
Local Notation p i := (nth i poly v0).
Definition ev (i : nat) : V3 := sub3 (p (i1 i)) (p i).
Lemma comp_sub u v j : comp (sub3 u v) j = comp u j - comp v j. Proof. destruct j as [|[|j]]; reflexivity. Qed.
Lemma comp_cross3 (f : V3) j : (j < 3)%nat -> j = 0%nat \/ j = 1%nat \/ j = 2%nat. Proof. lia. Qed.
Lemma ev_entry i j : (i < n)%nat -> de (edgeVectors poly) i j = comp (ev i) j.
Proof. intros B. unfold ev. rewrite comp_sub. rewrite <- (der_app n (fun k => comp (p k) j) i H2 B). unfold edgeVectors, app_. cbn [dmul de]. reflexivity. Qed.
Lemma mid_entry i j : (i < n)%nat -> de (edgeMidpoints poly) i j = (comp (p i) j + comp (p (i1 i)) j) / 2.
Proof. intros B. rewrite <- (avg_app n (fun k => comp (p k) j) i H2 B). unfold edgeMidpoints, app_. cbn [dmul de]. reflexivity. Qed.
Definition toV (f : nat -> R) : V3 := mk3 (f 0%nat) (f 1%nat) (f 2%nat).
Lemma comp_toV f j : (j < 3)%nat -> comp (toV f) j = f j. Proof. intros H. destruct j as [|[|[|j]]]; try reflexivity. lia. Qed.
Lemma bracket_app N v j : (j < 3)%nat -> app_ (bracket N) v j = comp (cross3 N (toV v)) j.
Proof. intros H. unfold app_. cbn [bracket dc seq]. rewrite !Rsum_cons, Rsum_nil. destruct j as [|[|[|j]]]; cbn [bracket de comp cross3 toV qx qy qz]; try ring. lia. Qed.
(** the gradient *)
Definition coG (X : nat -> R) (j : nat) : R := Rsum (fun i => comp (ev i) j * ((X i + X (i1 i)) / 2)) (seq 0 n).
Lemma grad_app A N X j : (j < 3)%nat -> app_ (faceGradient A N poly) X j = 1 / A * comp (cross3 N (toV (coG X))) j.
Proof.
  intros J. unfold faceGradient. rewrite app_mul, app_scale. f_equal. rewrite bracket_app by auto. f_equal. f_equal. unfold toV.
  assert (E : forall k, app_ (coGradient poly) X k = coG X k).
  { intros k. unfold coGradient. rewrite app_mul. unfold app_ at 1. cbn [dtr dc de]. unfold coG. replace (dr (edgeVectors poly)) with n by (cbn; symmetry; apply der_size). apply Rsum_ext. intros i Hi. apply in_seq in Hi. rewrite ev_entry, avg_app by lia. reflexivity. }
  rewrite !E. reflexivity.
Qed.
Definition grad_size A N : dc (faceGradient A N poly) = n. Proof. cbn. apply avg_size. Qed.
(** the sharp *)
Definition mv (i : nat) : V3 := div3 (add3 (p i) (p (i1 i))) 2.
Definition sh (X : nat -> R) (j : nat) : R := Rsum (fun i => (comp (mv i) j - comp (centroid poly) j) * X i) (seq 0 n).
Lemma comp_div u s j : comp (div3 u s) j = comp u j / s. Proof. destruct j as [|[|j]]; unfold div3; cbn; unfold Rdiv; ring. Qed.
Lemma comp_add u v j : comp (add3 u v) j = comp u j + comp v j. Proof. destruct j as [|[|j]]; reflexivity. Qed.
Lemma sharp_app A N X j : (j < 3)%nat -> app_ (sharpMatrix A N poly) X j = 1 / A * comp (cross3 N (toV (sh X))) j.
Proof.
  intros J. unfold sharpMatrix. rewrite app_mul, app_scale. f_equal. rewrite bracket_app by auto. f_equal. f_equal. unfold toV.
  assert (E : forall k, app_ (dsub (dtr (edgeMidpoints poly)) (dmul (column (centroid poly)) (dtr (ones n)))) X k = sh X k).
  { intros k. unfold app_, sh. cbn [dsub dc]. replace (dc (dtr (edgeMidpoints poly))) with n by (cbn; symmetry; apply avg_size). apply Rsum_ext. intros i Hi. apply in_seq in Hi. f_equal. cbn [dsub de dtr dmul column ones dc]. unfold sumTo. cbn [seq fold_right]. rewrite mid_entry by lia. unfold mv. rewrite comp_div, comp_add. ring. }
  rewrite !E. reflexivity.
Qed.
Lemma sharp_size A N : dr (sharpMatrix A N poly) = 3%nat /\ dc (sharpMatrix A N poly) = n. Proof. split; [reflexivity|]. cbn. apply avg_size. Qed.
(** the flat *)
Lemma flat_app N v i : (i < n)%nat -> app_ (flatMatrix N poly) v i = dot3 (ev i) (sub3 (toV v) (mul3 N (dot3 N (toV v)))).
Proof.
  intros B. unfold flatMatrix. rewrite app_mul. unfold app_ at 1. change (dc (edgeVectors poly)) with 3%nat. cbn [seq]. rewrite !Rsum_cons, Rsum_nil, !ev_entry by auto.
  unfold app_. cbn [dsub dc ident seq]. rewrite !Rsum_cons, !Rsum_nil. cbn [dsub de ident dmul column dtr dc sumTo seq fold_right comp Nat.eqb]. unfold sumTo. cbn [seq fold_right]. unfold dot3, sub3, mul3, toV. cbn [qx qy qz]. destruct (ev i), N. cbn [GeoModel.qx GeoModel.qy GeoModel.qz]. ring.
Qed.
Lemma flat_size N : dr (flatMatrix N poly) = n /\ dc (flatMatrix N poly) = 3%nat. Proof. split; [|reflexivity]. cbn. apply der_size. Qed.
Lemma proj_app A N X i : (i < n)%nat -> app_ (projection A N poly) X i = X i - dot3 (ev i) (mul3 (cross3 N (toV (sh X))) (1 / A)).
Proof.
  intros B. unfold projection. rewrite app_sub by (cbn; symmetry; apply avg_size). rewrite app_ident by auto. f_equal. rewrite app_mul, flat_app by auto.
  assert (E : toV (app_ (sharpMatrix A N poly) X) = mul3 (cross3 N (toV (sh X))) (1 / A)).
  { unfold toV at 1. rewrite !sharp_app by lia. cbn [comp]. unfold mul3. f_equal; ring. }
  rewrite E. set (w := toV (sh X)). set (e := ev i). clearbody w e. destruct e, w, N. unfold dot3, sub3, mul3, cross3. cbn [GeoModel.qx GeoModel.qy GeoModel.qz]. ring.
Qed.
Lemma proj_size A N : dr (projection A N poly) = n /\ dc (projection A N poly) = n. Proof. split; reflexivity. Qed.
(** the Laplacian of a face *)
Lemma lap_bil lam A N X Y : let dX := fun i => X (i1 i) - X i in let dY := fun i => Y (i1 i) - Y i in
  let gX := mul3 (cross3 N (toV (sh dX))) (1 / A) in let gY := mul3 (cross3 N (toV (sh dY))) (1 / A) in
  bil n (de (faceLaplacian lam A N poly)) X Y = A * dot3 gX gY + lam * Rsum (fun i => (dX i - dot3 (ev i) gX) * (dY i - dot3 (ev i) gY)) (seq 0 n).
Proof.
  intros dX dY gX gY. unfold faceLaplacian. cbv zeta. destruct (der_size n) as [D1 D2]. destruct (sharp_size A N) as [S1 S2]. destruct (proj_size A N) as [P1 P2].
  rewrite bil_right by (auto; cbn; apply avg_size). rewrite bil_left by (auto; cbn; apply avg_size). unfold innerProduct. cbv zeta. rewrite bil_inner by auto.
  assert (ES : forall X k, app_ (sharpMatrix A N poly) (app_ (derivative n) X) k = app_ (sharpMatrix A N poly) (fun i => X (i1 i) - X i) k) by (intros Z k; apply app_ext; intros j Hj; rewrite S2 in Hj; apply der_app; auto).
  assert (EP : forall X k, app_ (projection A N poly) (app_ (derivative n) X) k = app_ (projection A N poly) (fun i => X (i1 i) - X i) k) by (intros Z k; apply app_ext; intros j Hj; rewrite P2 in Hj; apply der_app; auto).
  f_equal.
  - f_equal. cbn [seq]. rewrite !Rsum_cons, Rsum_nil, !ES, !sharp_app by lia. fold dX dY. unfold gX, gY, dot3, mul3. cbn [comp qx qy qz]. ring.
  - f_equal. apply Rsum_ext. intros i Hi. apply in_seq in Hi. rewrite !EP, !proj_app by lia. reflexivity.
Qed.
Lemma lap_dim lam A N : dr (faceLaplacian lam A N poly) = n. Proof. cbn. apply der_size. Qed.
End P.
