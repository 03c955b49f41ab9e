From Coq Require Import Reals Lra Permutation.
From Verif Require Import Base DataModel DataSpec DataProofs MeshModel MeshSpec MeshBase MeshExec MeshOrbit MeshOpSpec MeshFlip MeshThms MeshSplit MeshHistorySpec MeshHistory MeshDataModel CollapseProofs CountSpec
  MatrixModel MatrixSpec MatrixProofs GeoModel IntrinsicModel IntrinsicSpec EmbeddedModel EmbeddedSpec Intrinsic1 Intrinsic2 Intrinsic3 Intrinsic4 Intrinsic5 Intrinsic7 PolyModel PolySpec Poly1.
Open Scope R_scope.
(** ** one triangle *)
Lemma sq3 u : 0 <= qx u * qx u + qy u * qy u + qz u * qz u. Proof. destruct u; cbn; nra. Qed.
Lemma heron_cross P Q : heronArg (sqrt (dot3 Q Q)) (sqrt (dot3 P P)) (sqrt (dot3 (sub3 P Q) (sub3 P Q))) = 4 * (norm3d (cross3 P Q) * norm3d (cross3 P Q)).
Proof.
  assert (N : forall u, 0 <= dot3 u u) by (intros [a b c]; unfold dot3; cbn; nra).
  pose proof (sqrt_sqrt _ (N P)) as HP. pose proof (sqrt_sqrt _ (N Q)) as HQ. pose proof (sqrt_sqrt _ (N (sub3 P Q))) as HD. unfold norm3d. rewrite sqrt_sqrt by apply sq3.
  set (a := sqrt (dot3 Q Q)) in *. set (b := sqrt (dot3 P P)) in *. set (d := sqrt (dot3 (sub3 P Q) (sub3 P Q))) in *. unfold heronArg.
  transitivity (4 * (a * a) * (b * b) - (a * a + b * b - d * d) * (a * a + b * b - d * d)); [ring|]. rewrite HP, HQ, HD. destruct P, Q. unfold dot3, sub3, cross3. cbn. ring.
Qed.
Lemma norm3_nonneg u : 0 <= norm3d u. Proof. apply sqrt_pos. Qed.
Lemma heron_sqrt P Q : sqrt (heronArg (sqrt (dot3 Q Q)) (sqrt (dot3 P P)) (sqrt (dot3 (sub3 P Q) (sub3 P Q)))) = 2 * norm3d (cross3 P Q).
Proof. rewrite heron_cross. pose proof (norm3_nonneg (cross3 P Q)). replace (4 * (norm3d (cross3 P Q) * norm3d (cross3 P Q))) with ((2 * norm3d (cross3 P Q)) * (2 * norm3d (cross3 P Q))) by ring. apply sqrt_square. lra. Qed.
(** the three terms of a triangle with the legs P, Q; zero when the triangle is small *)
Definition big (P Q : V3) : bool := if Rlt_dec (1 / 10000000) (norm3d (cross3 P Q)) then true else false.
Definition T0 P Q : R := if big P Q then dot3 P (sub3 P Q) / (2 * norm3d (cross3 P Q)) else 0.
Definition T1 P Q : R := if big P Q then dot3 Q (sub3 Q P) / (2 * norm3d (cross3 P Q)) else 0.
Definition T2 P Q : R := if big P Q then dot3 P Q / (2 * norm3d (cross3 P Q)) else 0.
(** the form of one triangle *)
Definition tform P Q (a b a' b' : R) : R := T0 P Q * b * b' + T1 P Q * a * a' + T2 P Q * (a - b) * (a' - b').
Lemma tform_eq P Q a b : tform P Q a b a b = if big P Q then dot3 (sub3 (mul3 Q a) (mul3 P b)) (sub3 (mul3 Q a) (mul3 P b)) / (2 * norm3d (cross3 P Q)) else 0.
Proof.
  unfold tform, T0, T1, T2. destruct (big P Q) eqn:B; [|ring]. unfold big in B. destruct (Rlt_dec _ _) as [H|]; [|discriminate]. assert (N : norm3d (cross3 P Q) <> 0) by lra. set (k := norm3d (cross3 P Q)) in *. clearbody k.
  destruct P, Q. unfold dot3, sub3, mul3. cbn. field. auto.
Qed.
Lemma tform_nonneg P Q a b : 0 <= tform P Q a b a b.
Proof.
  rewrite tform_eq. unfold big. destruct (Rlt_dec _ _) as [H|]; [|lra]. apply Rmult_le_pos; [|apply Rlt_le, Rinv_0_lt_compat; lra]. generalize (sub3 (mul3 Q a) (mul3 P b)). intros [x y z]. unfold dot3. cbn. nra.
Qed.
Lemma tform_grad P Q g : dot3 g (cross3 P Q) = 0 ->
  tform P Q (dot3 g P) (dot3 g Q) (dot3 g P) (dot3 g Q) = if Rlt_dec (1 / 10000000) (norm3d (cross3 P Q)) then norm3d (cross3 P Q) / 2 * dot3 g g else 0.
Proof.
  intros O. rewrite tform_eq. unfold big. destruct (Rlt_dec _ _) as [H|]; auto. assert (N : norm3d (cross3 P Q) <> 0) by lra.
  assert (E : dot3 (sub3 (mul3 Q (dot3 g P)) (mul3 P (dot3 g Q))) (sub3 (mul3 Q (dot3 g P)) (mul3 P (dot3 g Q))) = dot3 g g * (norm3d (cross3 P Q) * norm3d (cross3 P Q))).
  { unfold norm3d. rewrite sqrt_sqrt by apply sq3.
    transitivity (dot3 g g * dot3 (cross3 P Q) (cross3 P Q) - dot3 g (cross3 P Q) * dot3 g (cross3 P Q)); [destruct P, Q, g; unfold dot3, sub3, mul3, cross3; cbn; ring|]. rewrite O. unfold dot3. ring. }
  rewrite E. field. auto.
Qed.
(** ** the loops *)
Section Loop.
Context (poly : list V3) (c : V3) (X Y : nat -> R).
Local Notation n := (length poly).
Local Notation i1 i := ((i + 1) mod n)%nat.
Definition Pl (i : nat) : V3 := sub3 (nth i poly v0) c.
Definition Ql (i : nat) : V3 := sub3 (nth (i1 i) poly v0) c.
Lemma fan_eq i : fanSquares (nth i poly v0) (nth (i1 i) poly v0) c = (dot3 (Ql i) (Ql i), dot3 (Pl i) (Pl i), dot3 (sub3 (Pl i) (Ql i)) (sub3 (Pl i) (Ql i))).
Proof. unfold fanSquares, Pl, Ql, norm2_3, dot3, sub3. cbn. f_equal. ring. Qed.
Lemma stiffStep_eq s i : (i < n)%nat -> let s' := stiffStep poly c s i in
  bil n (de (fst s')) X Y = bil n (de (fst s)) X Y + (T0 (Pl i) (Ql i) * X (i1 i) * Y (i1 i) + T1 (Pl i) (Ql i) * X i * Y i + T2 (Pl i) (Ql i) * (X i - X (i1 i)) * (Y i - Y (i1 i))) /\
  (forall Z, lin n (snd s') Z = lin n (snd s) Z + (- T0 (Pl i) (Ql i) * Z (i1 i) - T1 (Pl i) (Ql i) * Z i)) /\
  snd s' n = snd s n + (T0 (Pl i) (Ql i) + T1 (Pl i) (Ql i)).
Proof.
  intros Hi s'. assert (H1 : (i1 i < n)%nat) by (apply Nat.mod_upper_bound; lia). subst s'. destruct s as [M ln]. unfold stiffStep. rewrite fan_eq. cbv zeta. rewrite heron_sqrt. replace (1 / 2 * (2 * norm3d (cross3 (Pl i) (Ql i)))) with (norm3d (cross3 (Pl i) (Ql i))) by field.
  unfold T0, T1, T2, big. set (P := Pl i). set (Q := Ql i). destruct (Rlt_dec (1 / 10000000) (norm3d (cross3 P Q))) as [G|G]; cbn [fst snd].
  - assert (N : norm3d (cross3 P Q) <> 0) by lra. set (k := norm3d (cross3 P Q)) in *.
    replace (1 / 4 * (dot3 P P + dot3 (sub3 P Q) (sub3 P Q) - dot3 Q Q) / k) with (dot3 P (sub3 P Q) / (2 * k)) by (clearbody k P Q; destruct P, Q; unfold dot3, sub3; cbn; field; auto).
    replace (1 / 4 * (dot3 (sub3 P Q) (sub3 P Q) + dot3 Q Q - dot3 P P) / k) with (dot3 Q (sub3 Q P) / (2 * k)) by (clearbody k P Q; destruct P, Q; unfold dot3, sub3; cbn; field; auto).
    replace (1 / 4 * (dot3 Q Q + dot3 P P - dot3 (sub3 P Q) (sub3 P Q)) / k) with (dot3 P Q / (2 * k)) by (clearbody k P Q; destruct P, Q; unfold dot3, sub3; cbn; field; auto).
    set (t0 := dot3 P (sub3 P Q) / (2 * k)). set (t1 := dot3 Q (sub3 Q P) / (2 * k)). set (t2 := dot3 P Q / (2 * k)). split; [rewrite !bil_incr by auto; ring|]. split.
    + intros Z. rewrite lin_last, !lin_incr by auto. ring.
    + rewrite incr_eq, !incr_ne by lia. ring.
  - split; [ring|]. split; [intros; ring|ring].
Qed.
Lemma massStep_eq s i : (i < n)%nat -> let s' := massStep poly c s i in let A := norm3d (cross3 (Pl i) (Ql i)) / 2 in
  bil n (de (fst s')) X Y = bil n (de (fst s)) X Y + A * (1 / 6 * (X i * Y i + X (i1 i) * Y (i1 i)) + 1 / 12 * (X i * Y (i1 i) + X (i1 i) * Y i)) /\
  (forall Z, lin n (snd s') Z = lin n (snd s) Z + A / 12 * (Z i + Z (i1 i))) /\
  snd s' n = snd s n + A / 6.
Proof.
  intros Hi s' A. assert (H1 : (i1 i < n)%nat) by (apply Nat.mod_upper_bound; lia). subst s'. destruct s as [M ln]. unfold massStep. rewrite fan_eq. cbv zeta. rewrite heron_sqrt. replace (1 / 4 * (2 * norm3d (cross3 (Pl i) (Ql i)))) with A by (unfold A; field). clearbody A. cbn [fst snd].
  split; [rewrite !bil_incr by auto; field|]. split; [intros Z; rewrite lin_last, !lin_incr by auto; field|]. rewrite incr_eq, !incr_ne by lia. field.
Qed.
Section Fold.
Context (step : dense * (nat -> R) -> nat -> dense * (nat -> R)) (b : nat -> R) (l : nat -> (nat -> R) -> R) (e : nat -> R)
  (H : forall s i, (i < n)%nat -> bil n (de (fst (step s i))) X Y = bil n (de (fst s)) X Y + b i /\ (forall Z, lin n (snd (step s i)) Z = lin n (snd s) Z + l i Z) /\ snd (step s i) n = snd s n + e i).
Lemma fold_eq is : (forall i, In i is -> (i < n)%nat) -> forall s, let s' := fold_left step is s in
  bil n (de (fst s')) X Y = bil n (de (fst s)) X Y + Rsum b is /\ (forall Z, lin n (snd s') Z = lin n (snd s) Z + Rsum (fun i => l i Z) is) /\ snd s' n = snd s n + Rsum e is.
Proof.
  induction is as [|i t IH]; intros B s; cbn [fold_left]; cbv zeta.
  - rewrite !Rsum_nil. repeat split; intros; rewrite ?Rsum_nil; ring.
  - destruct (IH (fun i Hi => B i (or_intror Hi)) (step s i)) as (A1 & A2 & A3). destruct (H s i (B i (or_introl eq_refl))) as (B1 & B2 & B3). rewrite A1, A3, B1, B3. split; [rewrite Rsum_cons; ring|]. split; [|rewrite Rsum_cons; ring]. intros Z. rewrite A2, B2, Rsum_cons. ring.
Qed.
End Fold.
Lemma prolong_bil w s : bil n (de (prolong w n s)) X Y =
  bil n (de (fst s)) X Y + lin n (fun i => nth i w 0) X * lin n (snd s) Y + lin n (snd s) X * lin n (fun i => nth i w 0) Y + lin n (fun i => nth i w 0) X * lin n (fun i => nth i w 0) Y * snd s n.
Proof.
  destruct s as [M ln]. cbn [prolong de fst snd]. rewrite bil_add, !bil_add, !bil_rank1.
  replace (bil n (fun i j => nth j w 0 * ln i) X Y) with (bil n (fun i j => ln i * nth j w 0) X Y) by (apply bil_ext; auto; intros; ring). rewrite bil_rank1.
  replace (bil n (fun i j => nth i w 0 * nth j w 0 * ln n) X Y) with (bil n (fun i j => ln n * (nth i w 0 * nth j w 0)) X Y) by (apply bil_ext; auto; intros; ring). rewrite bil_scal, bil_rank1. ring.
Qed.
Lemma stiff_bil w : let WX := lin n (fun i => nth i w 0) X in let WY := lin n (fun i => nth i w 0) Y in
  bil n (de (prolong w n (fold_left (stiffStep poly c) (seq 0 n) (dzero n n, fun _ => 0)))) X Y = Rsum (fun i => tform (Pl i) (Ql i) (X i - WX) (X (i1 i) - WX) (Y i - WY) (Y (i1 i) - WY)) (seq 0 n).
Proof.
  intros WX WY. rewrite prolong_bil. fold WX WY.
  destruct (fold_eq _ _ (fun i Z => - T0 (Pl i) (Ql i) * Z (i1 i) - T1 (Pl i) (Ql i) * Z i) _ stiffStep_eq (seq 0 n) (fun i Hi => proj2 (proj1 (in_seq _ _ _) Hi)) (dzero n n, fun _ => 0)) as (E1 & E2 & E3). rewrite E1, !E2, E3. cbn [fst snd dzero de]. rewrite bil_zero.
  assert (Z0 : forall Z, lin n (fun _ => 0) Z = 0) by (intros; apply Rsum_zero; intros; ring). rewrite !Z0, !Rplus_0_l.
  rewrite (Rsum_ext (fun i => tform _ _ _ _ _ _) (fun i => (T0 (Pl i) (Ql i) * X (i1 i) * Y (i1 i) + T1 (Pl i) (Ql i) * X i * Y i + T2 (Pl i) (Ql i) * (X i - X (i1 i)) * (Y i - Y (i1 i)))
     + WX * (- T0 (Pl i) (Ql i) * Y (i1 i) - T1 (Pl i) (Ql i) * Y i) + WY * (- T0 (Pl i) (Ql i) * X (i1 i) - T1 (Pl i) (Ql i) * X i) + WX * WY * (T0 (Pl i) (Ql i) + T1 (Pl i) (Ql i)))) by (intros i _; unfold tform; ring).
  rewrite !Rsum_plus, !Rsum_scal. rewrite Rsum_plus. ring.
Qed.
Lemma mass_bil w : let WX := lin n (fun i => nth i w 0) X in let WY := lin n (fun i => nth i w 0) Y in
  bil n (de (prolong w n (fold_left (massStep poly c) (seq 0 n) (dzero n n, fun _ => 0)))) X Y = Rsum (fun i => integral (norm3d (cross3 (Pl i) (Ql i)) / 2) (X i) (X (i1 i)) WX (Y i) (Y (i1 i)) WY) (seq 0 n).
Proof.
  intros WX WY. rewrite prolong_bil. fold WX WY.
  destruct (fold_eq _ _ (fun i Z => norm3d (cross3 (Pl i) (Ql i)) / 2 / 12 * (Z i + Z (i1 i))) _ massStep_eq (seq 0 n) (fun i Hi => proj2 (proj1 (in_seq _ _ _) Hi)) (dzero n n, fun _ => 0)) as (E1 & E2 & E3). rewrite E1, !E2, E3. cbn [fst snd dzero de]. rewrite bil_zero.
  assert (Z0 : forall Z, lin n (fun _ => 0) Z = 0) by (intros; apply Rsum_zero; intros; ring). rewrite !Z0, !Rplus_0_l.
  set (A := fun i => norm3d (cross3 (Pl i) (Ql i)) / 2). 
  rewrite (Rsum_ext (fun i => integral _ _ _ _ _ _ _) (fun i => A i * (1 / 6 * (X i * Y i + X (i1 i) * Y (i1 i)) + 1 / 12 * (X i * Y (i1 i) + X (i1 i) * Y i)) + WX * (A i / 12 * (Y i + Y (i1 i))) + WY * (A i / 12 * (X i + X (i1 i))) + WX * WY * (A i / 6))) by (intros i _; unfold integral; fold (A i); field).
  rewrite !Rsum_plus, !Rsum_scal. unfold A. ring.
Qed.
End Loop.
