(** Proofs about the integer formulas *)
From Verif Require Import Base MeshModel MeshSpec MeshBase NormalModel NormalSpec.
Open Scope Z_scope.

Lemma countb_interval a b n : 0 <= n -> 0 <= a -> countb (fun p => (a <=? p) && (p <? b)) n = Z.max 0 (Z.min b n - a).
Proof.
  intros Hn Ha. revert n Hn. apply Z_ind_nonneg.
  - rewrite countb_0 by lia. lia.
  - intros n Hn IH. rewrite countb_S, IH by lia. unfold b2z. destruct (a <=? n) eqn:A, (n <? b) eqn:B; cbn; lia.
Qed.
Lemma countb_or p q n : 0 <= n -> (forall i, p i && q i = false) -> countb (fun i => p i || q i) n = countb p n + countb q n.
Proof.
  intros Hn D. revert n Hn. apply Z_ind_nonneg.
  - rewrite !countb_0 by lia. lia.
  - intros n Hn IH. rewrite !countb_S, IH by lia. specialize (D n). unfold b2z. destruct (p n), (q n); cbn in *; try discriminate; lia.
Qed.
Lemma switches_count top bot : Planar top -> Planar bot -> xIJ top = xIJ bot ->
  countb (switches top bot) (xIJ top) = Z.max 0 (cI top - (cI bot + eK bot)) + Z.max 0 (cI bot - (cI top + eK top)).
Proof.
  intros P Q E. destruct P as [P1 P2 P3 P4 P5 P6 P7 P8 P9], Q as [Q1 Q2 Q3 Q4 Q5 Q6 Q7 Q8 Q9]. unfold xIJ in *.
  rewrite (countb_ext _ (fun p => ((cI bot + eK bot <=? p) && (p <? cI top)) || ((cI top + eK top <=? p) && (p <? cI bot)))).
  - rewrite countb_or, !countb_interval by lia. lia.
  - intros p Hp. unfold switches, exitAt.
    destruct (p <? cI top) eqn:A1, (p <? cI top + eK top) eqn:A2, (p <? cI bot) eqn:B1, (p <? cI bot + eK bot) eqn:B2; lia.
Qed.
Lemma joins_count top bot : Planar top -> Planar bot -> xIJ top = xIJ bot ->
  countb (joins top bot) (xIJ top) = Z.max 0 (Z.min (cI top + eK top) (cI bot + eK bot) - Z.max (cI top) (cI bot)).
Proof.
  intros P Q E. destruct P as [P1 P2 P3 P4 P5 P6 P7 P8 P9], Q as [Q1 Q2 Q3 Q4 Q5 Q6 Q7 Q8 Q9]. unfold xIJ in *.
  rewrite (countb_ext _ (fun p => (Z.max (cI top) (cI bot) <=? p) && (p <? Z.min (cI top + eK top) (cI bot + eK bot)))).
  - rewrite countb_interval by lia. lia.
  - intros p Hp. unfold joins, exitAt.
    destruct (p <? cI top) eqn:A1, (p <? cI top + eK top) eqn:A2, (p <? cI bot) eqn:B1, (p <? cI bot + eK bot) eqn:B2; lia.
Qed.

Lemma i32_ok z : - 2147483648 <= z < 2147483648 -> i32 z = Ok z.
Proof. unfold i32. intros H. destruct (-2147483648 <=? z) eqn:A, (z <? 2147483648) eqn:B; cbn; auto; lia. Qed.
Lemma sub3_ok a b c : - 2147483648 <= a - b < 2147483648 -> - 2147483648 <= a - b - c < 2147483648 -> sub3 a b c = Ok (a - b - c).
Proof. intros H K. unfold sub3. rewrite i32_ok by lia. cbn [bind]. apply i32_ok. lia. Qed.
Lemma add3_ok a b c : - 2147483648 <= a + b < 2147483648 -> - 2147483648 <= a + b + c < 2147483648 -> add3 a b c = Ok (a + b + c).
Proof. intros H K. unfold add3. rewrite i32_ok by lia. cbn [bind]. apply i32_ok. lia. Qed.

Ltac small_tac := unfold small, positivePart, negativePart in *; lia.

Lemma strictDegree_ok nij njk nki : small nij -> small njk -> small nki ->
  strictDegree nij njk nki = Ok (Z.max 0 (Z.max nij 0 - Z.max njk 0 - Z.max nki 0)).
Proof. intros A B C. unfold strictDegree. rewrite sub3_ok by small_tac. cbn [bind]. f_equal. small_tac. Qed.
(** the wrap-around computation is division rounding down *)
Lemma wrapped_half b d1 d2 : - 1073741824 <= b <= 1073741824 -> 0 <= d1 <= 1073741824 -> 0 <= d2 <= 1073741824 ->
  toInt (u64 (u64 (u64 b - d1) - d2) / 2) = (b - d1 - d2) / 2.
Proof.
  intros. unfold u64. replace (((b mod 18446744073709551616 - d1) mod 18446744073709551616 - d2) mod 18446744073709551616)
    with ((b - d1 - d2) mod 18446744073709551616).
  2:{ rewrite !Zminus_mod_idemp_l. replace (b mod 18446744073709551616 - d1 - d2) with (b mod 18446744073709551616 - (d1 + d2)) by lia. rewrite Zminus_mod_idemp_l. f_equal. lia. }
  remember (b - d1 - d2) as x. assert (-4294967296 <= x <= 1073741824) by lia. clear - H2. unfold toInt.
  destruct (Z_lt_ge_dec x 0).
  - replace (x mod 18446744073709551616) with (x + 18446744073709551616).
    + replace ((x + 18446744073709551616) / 2) with (x / 2 + 9223372036854775808) by lia.
      replace (x / 2 + 9223372036854775808 + 2147483648) with (x / 2 + 2147483648 + 2147483648 * 4294967296) by lia.
      rewrite Z_mod_plus by lia. rewrite Z.mod_small by lia. lia.
    + symmetry. rewrite <- (Z_mod_plus x 1 18446744073709551616) by lia. rewrite Z.mod_small; lia.
  - rewrite (Z.mod_small x) by lia. rewrite Z.mod_small by lia. lia.
Qed.
Lemma cornerCoord_ok nij njk nki : small nij -> small njk -> small nki ->
  cornerCoord nij njk nki = Ok ((njk + nki - nij - Z.max 0 (Z.max njk 0 - Z.max nki 0 - Z.max nij 0) - Z.max 0 (Z.max nki 0 - Z.max nij 0 - Z.max njk 0)) / 2).
Proof.
  intros A B C. unfold cornerCoord. rewrite i32_ok by small_tac. cbn [bind]. rewrite i32_ok by small_tac. cbn [bind].
  rewrite !strictDegree_ok by auto. cbn [bind]. rewrite wrapped_half by small_tac. reflexivity.
Qed.

Lemma degree_K t : Planar t -> Z.max (xIJ t - xJK t - xKI t) 0 = eK t /\ Z.min (xIJ t - xJK t - xKI t) 0 + eI t + eJ t = - (2 * cK t).
Proof. intros [? ? ? ? ? ? ? ? ?]. unfold xIJ, xJK, xKI. lia. Qed.
Lemma degree_I t : Planar t -> Z.max (xJK t - xKI t - xIJ t) 0 = eI t /\ Z.min (xJK t - xKI t - xIJ t) 0 + eJ t + eK t = - (2 * cI t).
Proof. intros [? ? ? ? ? ? ? ? ?]. unfold xIJ, xJK, xKI. lia. Qed.
Lemma degree_J t : Planar t -> Z.max (xKI t - xIJ t - xJK t) 0 = eJ t /\ Z.min (xKI t - xIJ t - xJK t) 0 + eK t + eI t = - (2 * cJ t).
Proof. intros [? ? ? ? ? ? ? ? ?]. unfold xIJ, xJK, xKI. lia. Qed.
Lemma edgeCoord_pos n x a : edgeCoord n x a -> Z.max n 0 = x.
Proof. unfold edgeCoord. lia. Qed.
Lemma edgeCoord_neg n x a : edgeCoord n x a -> - Z.min n 0 = a.
Proof. unfold edgeCoord. lia. Qed.
Lemma absHalf_even b x : absHalf b (2 * x) = 2 * Z.abs x.
Proof. unfold absHalf. destruct b; [|lia]. replace (2 * x) with (x * 2) by lia. rewrite Z.quot_mul by lia. lia. Qed.

Definition diagonalValue (top bot : arcs) (a : Z) : Z :=
  cK bot + cK top + eI top + eJ top + eI bot + eJ bot + a + (Z.abs (cJ bot - cJ top) + Z.abs (cI bot - cI top) - eK bot - eK top) / 2.
Lemma flip_value b top bot nij njk nki nil nlj a : Planar top -> Planar bot -> xIJ top = xIJ bot ->
  edgeCoord nij (xIJ top) a -> Z.max njk 0 = xJK top -> Z.max nki 0 = xKI top -> Z.max nil 0 = xKI bot -> Z.max nlj 0 = xJK bot ->
  small nij -> small njk -> small nki -> small nil -> small nlj ->
  flipNormalCoordinates b nij njk nki nil nlj = Ok (diagonalValue top bot a).
Proof.
  intros P Q E Ea E1 E2 E3 E4 S0 S1 S2 S3 S4. unfold flipNormalCoordinates.
  pose proof (edgeCoord_pos _ _ _ Ea) as Ep. pose proof (edgeCoord_neg _ _ _ Ea) as En.
  unfold positivePart, negativePart. rewrite E1, E2, E3, E4, En, Ep.
  destruct (degree_K top P) as (K1 & K2), (degree_I top P) as (I1 & I2), (degree_J top P) as (J1 & J2).
  destruct (degree_K bot Q) as (K3 & K4), (degree_I bot Q) as (I3 & I4), (degree_J bot Q) as (J3 & J4). rewrite <- E in *.
  assert (0 <= xIJ top <= 134217728 /\ 0 <= xJK top <= 134217728 /\ 0 <= xKI top <= 134217728 /\ 0 <= xJK bot <= 134217728 /\ 0 <= xKI bot <= 134217728) as X
    by (clear - S0 S1 S2 S3 S4 E1 E2 E3 E4 Ep; unfold small in *; lia).
  assert (0 <= a <= 134217728) as A by (clear - En S0; unfold small in *; lia).
  assert (exists w, Z.abs (cJ bot - cJ top) + Z.abs (cI bot - cI top) - eK bot - eK top = 2 * w) as (w & Hw).
  { exists ((Z.abs (cJ bot - cJ top) + Z.abs (cI bot - cI top) - eK bot - eK top) / 2). clear - E. unfold xIJ in E. lia. }
  assert (0 <= cK bot <= 134217728 /\ 0 <= cK top <= 134217728 /\ 0 <= eI top <= 134217728 /\ 0 <= eJ top <= 134217728 /\ 0 <= eI bot <= 134217728 /\ 0 <= eJ bot <= 134217728 /\
    -134217728 <= w <= 134217728) as B.
  { destruct P as [P1 P2 P3 P4 P5 P6 _ _ _], Q as [Q1 Q2 Q3 Q4 Q5 Q6 _ _ _]. clear - X E Hw P1 P2 P3 P4 P5 P6 Q1 Q2 Q3 Q4 Q5 Q6. unfold xIJ, xJK, xKI in *. lia. }
  assert (0 <= eK top <= 134217728 /\ 0 <= eK bot <= 134217728) as B'.
  { clear - X K1 K3. lia. }
  clear P Q Ea E1 E2 E3 E4 S0 S1 S2 S3 S4 Ep En.
  rewrite i32_ok by (clear - A; lia). cbn [bind]. rewrite !sub3_ok by (clear - X; lia). cbn [bind].
  replace (xJK bot - xIJ top - xKI bot) with (xJK bot - xKI bot - xIJ top) by ring.
  replace (xKI bot - xJK bot - xIJ top) with (xKI bot - xIJ top - xJK bot) by ring.
  replace (xIJ top - xKI bot - xJK bot) with (xIJ top - xJK bot - xKI bot) by ring.
  rewrite K1, I1, J1, K3, I3, J3.
  rewrite !add3_ok by (clear - X B B'; lia). cbn [bind].
  replace (Z.min (xIJ top - xJK top - xKI top) 0 + eI top + eJ top) with (- (2 * cK top)) by (clear - K2; lia).
  replace (Z.min (xJK top - xKI top - xIJ top) 0 + eJ top + eK top) with (- (2 * cI top)) by (clear - I2; lia).
  replace (Z.min (xKI top - xIJ top - xJK top) 0 + eI top + eK top) with (- (2 * cJ top)) by (clear - J2; lia).
  replace (Z.min (xIJ top - xJK bot - xKI bot) 0 + eI bot + eJ bot) with (- (2 * cK bot)) by (clear - K4; lia).
  replace (Z.min (xJK bot - xKI bot - xIJ top) 0 + eJ bot + eK bot) with (- (2 * cI bot)) by (clear - I4; lia).
  replace (Z.min (xKI bot - xIJ top - xJK bot) 0 + eI bot + eK bot) with (- (2 * cJ bot)) by (clear - J4; lia).
  replace (- - (2 * cJ bot) - - - (2 * cJ top)) with (2 * (cJ bot - cJ top)) by ring.
  replace (- - (2 * cI bot) - - - (2 * cI top)) with (2 * (cI bot - cI top)) by ring.
  rewrite !absHalf_even. unfold diagonalValue. rewrite Hw. replace (2 * w / 2) with w by (clear; lia).
  match goal with |- context [Z.quot ?x 2] => replace x with ((2 * (cK bot + cK top + eI top + eJ top + eI bot + eJ bot + w)) * 2) by (clear - Hw; lia) end.
  rewrite Z.quot_mul by discriminate. clear - A B. rewrite i32_ok by lia. cbn [bind].
  replace (2 * (cK bot + cK top + eI top + eJ top + eI bot + eJ bot + w)) with ((cK bot + cK top + eI top + eJ top + eI bot + eJ bot + w) * 2) by ring.
  rewrite Z.quot_mul by discriminate. rewrite i32_ok by lia. f_equal. ring.
Qed.
Lemma overlap i j k i' j' k' : 0 <= i -> 0 <= j -> 0 <= k -> 0 <= i' -> 0 <= j' -> 0 <= k' -> i + j + k = i' + j' + k' ->
  let S := Z.max 0 (i - (i' + k')) + Z.max 0 (i' - (i + k)) in let J := Z.max 0 (Z.min (i + k) (i' + k') - Z.max i i') in
  (Z.abs (j' - j) + Z.abs (i' - i) - k' - k) / 2 = S - J /\ 0 <= S /\ 0 <= J /\ (S = 0 \/ J = 0) /\ (0 < J -> 0 < k /\ 0 < k').
Proof.
  intros. subst S J.
  assert (Z.abs (j' - j) + Z.abs (i' - i) - k' - k = 2 * (Z.max 0 (i - (i' + k')) + Z.max 0 (i' - (i + k)) - Z.max 0 (Z.min (i + k) (i' + k') - Z.max i i'))) as -> by lia.
  split; [rewrite Z.mul_comm; apply Z.div_mul; discriminate|]. lia.
Qed.
Lemma diagonalValue_coord top bot a nij : Planar top -> Planar bot -> xIJ top = xIJ bot -> edgeCoord nij (xIJ top) a ->
  edgeCoord (diagonalValue top bot a) (diagonalCrossings top bot a) (diagonalAlong top bot).
Proof.
  intros P Q E Ea. unfold diagonalCrossings, diagonalAlong. rewrite switches_count, joins_count by auto.
  unfold diagonalValue, edgeCoord, xIJ in *. destruct P as [P1 P2 P3 P4 P5 P6 P7 P8 P9], Q as [Q1 Q2 Q3 Q4 Q5 Q6 Q7 Q8 Q9].
  destruct (overlap (cI top) (cJ top) (eK top) (cI bot) (cJ bot) (eK bot) P1 P2 P6 Q1 Q2 Q6 E) as (O1 & O2 & O3 & O4 & O5). rewrite O1.
  remember (Z.max 0 (cI top - (cI bot + eK bot)) + Z.max 0 (cI bot - (cI top + eK top))) as S.
  remember (Z.max 0 (Z.min (cI top + eK top) (cI bot + eK bot) - Z.max (cI top) (cI bot))) as J. clear HeqS HeqJ O1.
  assert (0 <= a) by lia. split; [lia|]. destruct (Z.eq_dec J 0) as [J0|J0]; [left; lia|right]. destruct O5; [lia|].
  destruct P9 as (R1 & R2 & R3); [lia|]. destruct Q9 as (R4 & R5 & R6); [lia|]. clear P7 P8 Q7 Q8. lia.
Qed.

(** the arcs after the flip: triangle k l j (with j as apex) and triangle k l i (with i as apex) *)
Definition sw1 t b := Z.max 0 (cI t - (cI b + eK b)).
Definition sw2 t b := Z.max 0 (cI b - (cI t + eK t)).
Definition flipJ (t b : arcs) (a : Z) : arcs := mkArcs
  (cK t + eI t + sw2 t b) (cK b + eI b + sw1 t b) (Z.min (cJ t) (cJ b))
  (Z.max 0 (cI t + eK t - Z.max (cI t) (cI b + eK b))) (Z.max 0 (cI b + eK b - Z.max (cI b) (cI t + eK t))) (eJ t + eJ b + a).
Definition flipI (t b : arcs) (a : Z) : arcs := mkArcs
  (cK t + eJ t + sw1 t b) (cK b + eJ b + sw2 t b) (Z.min (cI t) (cI b))
  (Z.max 0 (Z.min (cI t + eK t) (cI b) - cI t)) (Z.max 0 (Z.min (cI b + eK b) (cI t) - cI b)) (eI t + eI b + a).

Section Flipped.
Context (t b : arcs) (a n : Z) (P : Planar t) (Q : Planar b) (E : xIJ t = xIJ b) (A : edgeCoord n (xIJ t) a).
Lemma flipJ_planar : Planar (flipJ t b a).
Proof.
  destruct P as [P1 P2 P3 P4 P5 P6 P7 P8 P9], Q as [Q1 Q2 Q3 Q4 Q5 Q6 Q7 Q8 Q9]. unfold edgeCoord, xIJ in *.
  assert (0 <= a /\ (0 < a -> cI t = 0 /\ cJ t = 0 /\ eK t = 0 /\ cI b = 0 /\ cJ b = 0 /\ eK b = 0)) as (A0 & A1) by (clear P7 P8 P9 Q7 Q8 Q9; lia). clear A n.
  split; cbn -[Z.max Z.min]; unfold sw1, sw2; try (clear P7 P8 P9 Q7 Q8 Q9 A1; lia).
  - intros H. assert (0 < eK t) as Ht by (clear - H P1 P6; lia). apply P9 in Ht. clear P7 P8 P9.
    assert (cI b + eK b < cI t + eK t) by lia. assert (cJ t < cJ b) by lia. assert (eJ b = 0) by (clear - Q8 H1 P2 Q5; lia). assert (a = 0) by (clear - A0 A1 H P6; lia). clear Q7 Q8 Q9 A1. lia.
  - intros H. assert (0 < eK b) as Ht by (clear - H Q1 Q6; lia). apply Q9 in Ht. clear Q7 Q8 Q9.
    assert (cI t + eK t < cI b + eK b) by lia. assert (cJ b < cJ t) by lia. assert (eJ t = 0) by (clear - P8 H1 Q2 P5; lia). assert (a = 0) by (clear - A0 A1 H Q6; lia). clear P7 P8 P9 A1. lia.
  - intros H. destruct (Z.eq_dec a 0) as [->|Ha].
    + assert (0 < eJ t \/ 0 < eJ b) as [J|J] by (clear - H P5 Q5; lia); [apply P8 in J|apply Q8 in J]; clear P7 P8 P9 Q7 Q8 Q9; lia.
    + destruct A1 as (? & ? & ? & ? & ? & ?); [lia|]. clear P7 P8 P9 Q7 Q8 Q9. lia.
Qed.
Lemma flipI_planar : Planar (flipI t b a).
Proof.
  destruct P as [P1 P2 P3 P4 P5 P6 P7 P8 P9], Q as [Q1 Q2 Q3 Q4 Q5 Q6 Q7 Q8 Q9]. unfold edgeCoord, xIJ in *.
  assert (0 <= a /\ (0 < a -> cI t = 0 /\ cJ t = 0 /\ eK t = 0 /\ cI b = 0 /\ cJ b = 0 /\ eK b = 0)) as (A0 & A1) by (clear P7 P8 P9 Q7 Q8 Q9; lia). clear A n.
  split; cbn -[Z.max Z.min]; unfold sw1, sw2; try (clear P7 P8 P9 Q7 Q8 Q9 A1; lia).
  - intros H. assert (0 < eK t) as Ht by (clear - H P1 P6; lia). apply P9 in Ht. clear P7 P8 P9.
    assert (cI t < cI b) by lia. assert (eI b = 0) by (clear - Q7 H0 P1 Q4; lia). assert (a = 0) by (clear - A0 A1 H P6; lia). clear Q7 Q8 Q9 A1. lia.
  - intros H. assert (0 < eK b) as Ht by (clear - H Q1 Q6; lia). apply Q9 in Ht. clear Q7 Q8 Q9.
    assert (cI b < cI t) by lia. assert (eI t = 0) by (clear - P7 H0 Q1 P4; lia). assert (a = 0) by (clear - A0 A1 H Q6; lia). clear P7 P8 P9 A1. lia.
  - intros H. destruct (Z.eq_dec a 0) as [->|Ha].
    + assert (0 < eI t \/ 0 < eI b) as [J|J] by (clear - H P4 Q4; lia); [apply P7 in J|apply Q7 in J]; clear P7 P8 P9 Q7 Q8 Q9; lia.
    + destruct A1 as (? & ? & ? & ? & ? & ?); [lia|]. clear P7 P8 P9 Q7 Q8 Q9. lia.
Qed.
Lemma flip_edges : xIJ (flipJ t b a) = diagonalCrossings t b a /\ xIJ (flipI t b a) = diagonalCrossings t b a /\
  xJK (flipJ t b a) = xJK b /\ xKI (flipJ t b a) = xJK t /\ xJK (flipI t b a) = xKI b /\ xKI (flipI t b a) = xKI t.
Proof.
  unfold diagonalCrossings. rewrite switches_count by auto.
  destruct P as [P1 P2 P3 P4 P5 P6 _ _ _], Q as [Q1 Q2 Q3 Q4 Q5 Q6 _ _ _]. unfold xIJ, xJK, xKI, flipJ, flipI, sw1, sw2 in *. cbn -[Z.max Z.min]. clear A.
  split; [lia|]. split; [lia|]. split; [lia|]. split; [lia|]. split; lia.
Qed.
Lemma flip_back : diagonalValue (flipJ t b a) (flipI t b a) (diagonalAlong t b) = n.
Proof.
  unfold diagonalAlong. rewrite joins_count by auto. unfold diagonalValue, flipJ, flipI, sw1, sw2. cbn -[Z.max Z.min Z.div Z.abs].
  destruct P as [P1 P2 P3 P4 P5 P6 P7 P8 P9], Q as [Q1 Q2 Q3 Q4 Q5 Q6 Q7 Q8 Q9]. unfold edgeCoord, xIJ in *.
  assert (0 <= a) as A0 by (clear - A; lia).
  remember (Z.max 0 (cI t - (cI b + eK b))) as s1. remember (Z.max 0 (cI b - (cI t + eK t))) as s2.
  match goal with |- ?s + ?h / 2 = n => assert (s = cI t + cJ t + eK t - s1 - s2) as -> by (clear - E Heqs1 Heqs2 P1 P2 P6 Q1 Q2 Q6; lia);
    assert (h = 2 * (s1 + s2 - a)) as -> end.
  - assert (0 < s1 -> eI t = 0 /\ eJ b = 0 /\ s2 = 0) as S1.
    { intros H. assert (0 < cI t) by (clear - H Heqs1 Q1 Q6; lia). assert (0 < cJ b) by (clear - H Heqs1 E P2 P6 Q6; lia).
      split; [clear - P7 P4 H0; lia|]. split; [clear - Q8 Q5 H1; lia|]. clear - H Heqs1 Heqs2 P6 Q6. lia. }
    assert (0 < s2 -> eI b = 0 /\ eJ t = 0 /\ s1 = 0) as S2.
    { intros H. assert (0 < cI b) by (clear - H Heqs2 P1 P6; lia). assert (0 < cJ t) by (clear - H Heqs2 E Q2 P6 Q6; lia).
      split; [clear - Q7 Q4 H0; lia|]. split; [clear - P8 P5 H1; lia|]. clear - H Heqs1 Heqs2 P6 Q6. lia. }
    assert (eI t = 0 \/ eJ t = 0) as T1 by (clear - P7 P4; lia). assert (eI b = 0 \/ eJ b = 0) as T2 by (clear - Q7 Q4; lia).
    assert (0 <= s1 /\ 0 <= s2) as S0 by (clear - Heqs1 Heqs2; lia).
    clear - S0 S1 S2 T1 T2 P4 P5 Q4 Q5. lia.
  - rewrite Z.mul_comm, Z.div_mul by discriminate. clear - A. lia.
Qed.
End Flipped.

(** ** corners *)
Lemma corner_K t n1 n2 n3 : Planar t -> coordOf n1 (xIJ t) -> coordOf n2 (xJK t) -> coordOf n3 (xKI t) -> small n1 -> small n2 -> small n3 ->
  strictCornerCoord n1 n2 n3 = Ok (cK t) /\ strictDegree n1 n2 n3 = Ok (eK t).
Proof.
  intros P (a1 & A1 & C1) (a2 & A2 & C2) (a3 & A3 & C3) S1 S2 S3. unfold strictCornerCoord. rewrite cornerCoord_ok, strictDegree_ok by auto. cbn [bind].
  rewrite (edgeCoord_pos _ _ _ C1), (edgeCoord_pos _ _ _ C2), (edgeCoord_pos _ _ _ C3).
  destruct (degree_I t P) as (I1 & _), (degree_J t P) as (J1 & _), (degree_K t P) as (K1 & K2).
  rewrite !(Z.max_comm 0). rewrite I1, J1, K1. split; auto. f_equal. unfold positivePart.
  assert (-1 <= n1 /\ -1 <= n2 /\ -1 <= n3 /\ Z.max n1 0 = xIJ t /\ Z.max n2 0 = xJK t /\ Z.max n3 0 = xKI t) as (B1 & B2 & B3 & B4 & B5 & B6) by (clear - A1 A2 A3 C1 C2 C3; unfold edgeCoord in *; lia).
  unfold xIJ, xJK, xKI in *. destruct P as [P1 P2 P3 P4 P5 P6 P7 P8 P9]. clear - B1 B2 B3 B4 B5 B6 P1 P2 P3 P4 P5 P6 P9. lia.
Qed.
Definition rot1 (t : arcs) : arcs := mkArcs (cJ t) (cK t) (cI t) (eJ t) (eK t) (eI t).
Lemma rot1_planar t : Planar t -> Planar (rot1 t).
Proof. intros [? ? ? ? ? ? ? ? ?]. split; cbn; auto; intros; tauto. Qed.
Lemma rot1_edges t : xIJ (rot1 t) = xJK t /\ xJK (rot1 t) = xKI t /\ xKI (rot1 t) = xIJ t.
Proof. unfold xIJ, xJK, xKI. cbn. lia. Qed.
Lemma corners t n1 n2 n3 : Planar t -> coordOf n1 (xIJ t) -> coordOf n2 (xJK t) -> coordOf n3 (xKI t) -> small n1 -> small n2 -> small n3 ->
  strictCornerCoord n1 n2 n3 = Ok (cK t) /\ strictCornerCoord n2 n3 n1 = Ok (cI t) /\ strictCornerCoord n3 n1 n2 = Ok (cJ t) /\
  strictDegree n1 n2 n3 = Ok (eK t) /\ strictDegree n2 n3 n1 = Ok (eI t) /\ strictDegree n3 n1 n2 = Ok (eJ t).
Proof.
  intros P C1 C2 C3 S1 S2 S3. destruct (rot1_edges t) as (E1 & E2 & E3). pose proof (rot1_planar t P) as P'.
  destruct (rot1_edges (rot1 t)) as (F1 & F2 & F3). pose proof (rot1_planar _ P') as P''.
  destruct (corner_K t n1 n2 n3) as (A1 & A2); auto.
  destruct (corner_K (rot1 t) n2 n3 n1) as (B1 & B2); auto; try congruence.
  destruct (corner_K (rot1 (rot1 t)) n3 n1 n2) as (D1 & D2); auto; try congruence.
  cbn in B1, B2, D1, D2. auto 10.
Qed.
(** which triples of crossing counts come from arcs *)
Lemma arcs_exist x y z : 0 <= x -> 0 <= y -> 0 <= z ->
  ((y + z < x \/ z + x < y \/ x + y < z \/ (x + y + z) mod 2 = 0) <-> exists t, Planar t /\ xIJ t = x /\ xJK t = y /\ xKI t = z).
Proof.
  intros X Y Z0. split.
  - intros H. destruct (Z_lt_ge_dec (y + z) x) as [H1|H1]; [|destruct (Z_lt_ge_dec (z + x) y) as [H2|H2]; [|destruct (Z_lt_ge_dec (x + y) z) as [H3|H3]]].
    + exists (mkArcs z y 0 0 0 (x - y - z)). split; [split; cbn; lia|]. unfold xIJ, xJK, xKI. cbn. lia.
    + exists (mkArcs 0 x z (y - z - x) 0 0). split; [split; cbn; lia|]. unfold xIJ, xJK, xKI. cbn. lia.
    + exists (mkArcs x 0 y 0 (z - x - y) 0). split; [split; cbn; lia|]. unfold xIJ, xJK, xKI. cbn. lia.
    + assert ((x + y + z) mod 2 = 0) as E by lia. exists (mkArcs ((x + z - y) / 2) ((x + y - z) / 2) ((y + z - x) / 2) 0 0 0). split; [split; cbn; lia|]. unfold xIJ, xJK, xKI. cbn. lia.
  - intros (t & [P1 P2 P3 P4 P5 P6 P7 P8 P9] & <- & <- & <-). unfold xIJ, xJK, xKI in *. lia.
Qed.
Lemma flip_flip absInt top bot a nij njk nki nil nlj : Planar top -> Planar bot -> xIJ top = xIJ bot -> edgeCoord nij (xIJ top) a ->
  (exists b, edgeCoord njk (xJK top) b) -> (exists b, edgeCoord nki (xKI top) b) -> (exists b, edgeCoord nil (xKI bot) b) -> (exists b, edgeCoord nlj (xJK bot) b) ->
  tiny nij -> tiny njk -> tiny nki -> tiny nil -> tiny nlj ->
  exists nkl, flipNormalCoordinates absInt nij njk nki nil nlj = Ok nkl /\ flipNormalCoordinates absInt nkl nlj njk nki nil = Ok nij.
Proof.
  intros P Q E Ea (b1 & E1) (b2 & E2) (b3 & E3) (b4 & E4) S0 S1 S2 S3 S4. apply edgeCoord_pos in E1, E2, E3, E4. exists (diagonalValue top bot a).
  assert (forall n, tiny n -> small n) as TS by (unfold tiny, small; lia).
  split; [apply flip_value; auto|].
  pose proof (diagonalValue_coord top bot a nij P Q E Ea) as DV.
  destruct (flip_edges top bot a P Q E) as (F1 & F2 & F3 & F4 & F5 & F6). rewrite <- F1 in DV.
  rewrite (flip_value absInt (flipJ top bot a) (flipI top bot a) _ _ _ _ _ (diagonalAlong top bot)); auto; try congruence.
  - f_equal. apply flip_back; auto.
  - eapply flipJ_planar; eauto.
  - eapply flipI_planar; eauto.
  - apply edgeCoord_pos in Ea as Ep. apply edgeCoord_neg in Ea as En.
    destruct P as [P1 P2 P3 P4 P5 P6 _ _ _], Q as [Q1 Q2 Q3 Q4 Q5 Q6 _ _ _]. unfold diagonalValue, small, tiny, xIJ, xJK, xKI in *.
    assert (0 <= a <= 16777216) by (clear - En S0; lia).
    assert (0 <= cI top <= 16777216 /\ 0 <= cJ top <= 16777216 /\ 0 <= eK top <= 16777216 /\ 0 <= cK top + eI top <= 16777216 /\ 0 <= eJ top <= 16777216) by (clear - P1 P2 P3 P4 P5 P6 Ep E1 E2 S0 S1 S2; lia).
    assert (0 <= cI bot <= 16777216 /\ 0 <= cJ bot <= 16777216 /\ 0 <= eK bot <= 16777216 /\ 0 <= cK bot + eI bot <= 16777216 /\ 0 <= eJ bot <= 16777216) by (clear - Q1 Q2 Q3 Q4 Q5 Q6 E Ep E3 E4 S0 S3 S4; lia).
    clear - H H0 H1. lia.
Qed.
