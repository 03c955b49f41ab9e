(** A run with a flip: the tetrahedron with edge lengths 8 (edge 0), 6 (the edge opposite to it) and 5 (the others). *)
From Verif Require Import Base MeshModel MeshSpec MeshOpSpec MeshCheck MeshExamples MeshBase DelaunayModel DelaunayProofs DelaunaySpec DelaunayRules DelaunayThms GeoModel GeoSpec GeoProofs.
From Coq Require Import Reals Lra Psatz.
Open Scope Z_scope.

Definition tetLen {T} (x8 x6 x5 : T) (e : Z) : T := if e =? 0 then x8 else if e =? 3 then x6 else x5.
Definition anyPolicy {T} thr tr (bad : @T3 T * @T3 T -> @T3 T * @T3 T -> bool) ln : policy T :=
  {| pThrow := thr; pFixed := fun _ => false; pTri := tr; pBad := bad; pLen := ln; pFin := fun _ => true |}.
Section Run.
Context {T : Type} (thr tr : bool) (bad : @T3 T * @T3 T -> @T3 T * @T3 T -> bool) (ln : T -> T -> T -> T -> T -> T) (x8 x6 x5 : T) (fine : @T3 T -> Prop).
Let y := ln x5 x5 x5 x5 x8.
Lemma tet_run :
  (forall ta tb, rotated (x8, x5, x5) ta -> rotated (x8, x5, x5) tb -> bad ((x8, x5, x5), ta) ((x8, x5, x5), tb) = true) ->
  (forall s t u v, fine s -> fine t -> rotated s u -> rotated t v -> bad (s, u) (t, v) = false) ->
  fine (y, x5, x5) -> fine (x5, y, x5) -> fine (x5, x5, y) -> fine (x6, x5, x5) -> fine (x5, x6, x5) -> fine (x5, x5, x6) ->
  exists m' len', flipLoop (anyPolicy thr tr bad ln) 10 tet (tetLen x8 x6 x5) = Ok (Some (m', len', 1)) /\ ve m' 0 = 2 /\ ve m' 1 = 3 /\ len' 0 = y.
Proof.
  intros HB HG F1 F2 F3 F4 F5 F6. destruct tr; eexists; eexists; (split; [unfold flipLoop; change (liveEdges tet) with [0;1;2;3;4;5]; cbn [drain]|]).
  1,3: repeat (match goal with |- context [flipIfBad ?P ?m ?l ?e] => let r := eval cbv in (flipIfBad P m l e) in change (flipIfBad P m l e) with r end;
    (first [rewrite HB by (cbn; auto) | rewrite HG by (fold y; cbn; auto)]); cbv beta iota; cbn [bind];
    repeat (match goal with |- context [next ?m ?h] => let r := eval cbv in (next m h) in change (next m h) with r end; cbn [bind]);
    try match goal with |- context [fold_left enqueue ?l ?st] => let r := eval cbv in (fold_left enqueue l st) in change (fold_left enqueue l st) with r end;
    cbv beta iota; cbn [drain]).
  1,2: reflexivity.
  all: repeat split; reflexivity.
Qed.
End Run.

Open Scope R_scope.
Definition len856 : Z -> R := tetLen 8 6 5.
Definition FineT (s : @T3 R) : Prop := TriGood s /\ 0 <= cotOf s.
Lemma area558 : triangleArea 8 5 5 = 12.
Proof. unfold triangleArea. apply sqrt_eq; [lra|]. rewrite Rmax_right by lra. lra. Qed.
Lemma cot855 : cotOf (8, 5, 5) = - (7 / 48).
Proof. unfold cotOf. rewrite area558. field. Qed.
Lemma good855 : TriGood (8, 5, 5). Proof. cbn. lra. Qed.
Lemma fine5 z : TriGood (z, 5, 5) -> 0 <= cotOf (z, 5, 5) -> FineT (z, 5, 5) /\ FineT (5, z, 5) /\ FineT (5, 5, z).
Proof.
  intros G C. assert (G2 := TriGood_rot _ _ _ G). assert (G3 := TriGood_rot _ _ _ G2). destruct (euclid_folded _ _ G2) as (C2 & C3). unfold FineT. repeat (split; auto); lra.
Qed.
Lemma area655 : triangleArea 6 5 5 = 12.
Proof. unfold triangleArea. apply sqrt_eq; [lra|]. rewrite Rmax_right by lra. lra. Qed.
Lemma fine_all : let y := layoutLen 5 5 5 5 8 in FineT (y, 5, 5) /\ FineT (5, y, 5) /\ FineT (5, 5, y) /\ FineT (6, 5, 5) /\ FineT (5, 6, 5) /\ FineT (5, 5, 6).
Proof.
  cbv zeta. assert (W : edgeCotanWeight ((8, 5, 5), (8, 5, 5)) ((8, 5, 5), (8, 5, 5)) < 0). { unfold edgeCotanWeight. rewrite !weight_rot by (left; auto). rewrite cot855. lra. }
  destruct (euclid_rule 8 5 5 5 5 (8, 5, 5) (8, 5, 5) good855 good855 (or_introl eq_refl) (or_introl eq_refl) W) as (G1 & _ & C).
  unfold edgeCotanWeight in C. rewrite !weight_rot in C by (left; auto).
  destruct (fine5 _ G1 ltac:(lra)) as (F1 & F2 & F3).
  destruct (fine5 6) as (F4 & F5 & F6); [cbn; lra|unfold cotOf; rewrite area655; lra|]. auto 10.
Qed.
Lemma tet_euclid_run P : (P = simplePolicy false 0 \/ P = integerPolicy (fun _ => false) 0 \/ P = signpostPolicy (fun _ => false) (1 / 100000)) ->
  exists m' len', flipLoop P 10 tet len856 = Ok (Some (m', len', 1%Z)) /\ ve m' 0 = 2%Z /\ ve m' 1 = 3%Z /\ len' 0%Z = layoutLen 5 5 5 5 8.
Proof.
  intros HP. destruct fine_all as (F1 & F2 & F3 & F4 & F5 & F6).
  assert (E : P = anyPolicy (pThrow P) true (pBad P) layoutLen) by (destruct HP as [->|[->| ->]]; reflexivity). rewrite E.
  apply (tet_run (pThrow P) true (pBad P) layoutLen 8 6 5 FineT); auto.
  - intros ta tb RA RB. destruct HP as [->|[->| ->]]; cbn [pBad simplePolicy integerPolicy signpostPolicy]; unfold edgeCotanWeight; rewrite !weight_rot by auto; rewrite cot855; [apply ltb_true; lra|apply ltb_true; lra|].
    apply negb_true_iff, ltb_false. lra.
  - intros s t u v (_ & C1) (_ & C2) RA RB. destruct HP as [->|[->| ->]]; cbn [pBad simplePolicy integerPolicy signpostPolicy]; unfold edgeCotanWeight; rewrite !weight_rot by auto; [apply ltb_false; lra|apply ltb_false; lra|].
    apply negb_false_iff, ltb_true. lra.
Qed.
Lemma tet_hyper_run : exists m' len', flipLoop (simplePolicy true 0) 10 tet len856 = Ok (Some (m', len', 1%Z)) /\ ve m' 0 = 2%Z /\ ve m' 1 = 3%Z /\ len' 0%Z = (5 * 5 + 5 * 5) / 8.
Proof.
  set (FineH := fun s : @T3 R => let '(a, b, c) := s in 0 < a /\ 0 < b /\ 0 < c /\ a * a <= b * b + c * c).
  change (simplePolicy true 0) with (anyPolicy true false (pBad (simplePolicy true 0)) ptolemyLen).
  apply (tet_run true false (pBad (simplePolicy true 0)) ptolemyLen 8 6 5 FineH).
  - intros ta tb _ _. cbn [pBad simplePolicy]. rewrite hyper_score by lra. apply ltb_true. lra.
  - intros ((a, b), c) ((a', b'), c') u v (A1 & A2 & A3 & A4) (B1 & B2 & B3 & B4) _ _. cbn [pBad simplePolicy]. apply ltb_false.
    unfold hyperbolicScore, hyperbolicTerm.
    replace (0 - a / (b * c) + b / (c * a) + c / (a * b) - a' / (b' * c') + b' / (c' * a') + c' / (a' * b'))
      with ((b * b + c * c - a * a) / (a * b * c) + (b' * b' + c' * c' - a' * a') / (a' * b' * c')) by (field; lra).
    assert (0 < a * b * c) by (repeat apply Rmult_lt_0_compat; auto). assert (0 < a' * b' * c') by (repeat apply Rmult_lt_0_compat; auto).
    assert (0 <= (b * b + c * c - a * a) / (a * b * c)) by (apply Rle_mult_inv_pos; lra). assert (0 <= (b' * b' + c' * c' - a' * a') / (a' * b' * c')) by (apply Rle_mult_inv_pos; lra). lra.
  - cbn. unfold ptolemyLen. lra.
  - cbn. unfold ptolemyLen. lra.
  - cbn. unfold ptolemyLen. lra.
  - cbn. lra.
  - cbn. lra.
  - cbn. lra.
Qed.
Lemma tet_cases (Q : Z -> Prop) : Forall Q (zseq 12) -> forall h, liveH tet h -> Q h.
Proof. rewrite Forall_forall. intros H h ((L0 & L1) & _). apply H. apply zseq_In. change (heFill tet) with 12%Z in L1. lia. Qed.
Lemma tet_closed : closed tet. Proof. unfold closed. apply tet_cases. repeat constructor; vm_compute; intros K; apply K; reflexivity. Qed.
Lemma tet_triangular : triangular tet.
Proof.
  unfold triangular. apply (tet_cases (fun h => ~ ext tet h -> inTriangle tet h)). repeat (apply Forall_cons; [intros X; split; [exact X|]; vm_compute; split; [reflexivity|discriminate]|]). apply Forall_nil.
Qed.
Lemma tet_euclidean : euclidean tet len856.
Proof.
  unfold euclidean. apply (tet_cases (fun h => ~ ext tet h -> let a := len856 (edge h) in let b := len856 (edge (nx tet h)) in let c := len856 (edge (nx tet (nx tet h))) in 0 < a /\ a < b + c)).
  repeat (apply Forall_cons; [intros _; cbv -[Rlt Rplus IZR]; split; lra|]). apply Forall_nil.
Qed.
Lemma tet_positive : positiveLens tet len856.
Proof. intros h L X. apply (tet_euclidean h L X). Qed.
